(** Proofs about fingerprint indices. *)
From Coq Require Import ZifyBool Sorted.
From Verif Require Import Terms FPIndex.
Open Scope Z_scope.

Section FTreeInd.
  Variable P : fptree -> Prop.
  Hypothesis H : forall alts n p, Forall (fun ic => P (snd ic)) alts -> P (FPNode alts n p).
  Fixpoint fptree_ind' (x : fptree) : P x :=
    match x with
    | FPNode alts n p => H alts n p ((fix go (l : list (Z * fptree)) : Forall (fun ic => P (snd ic)) l :=
        match l with [] => Forall_nil _ | ic :: r => Forall_cons ic (fptree_ind' (snd ic)) (go r) end) alts)
    end.
End FTreeInd.

(** ** Association lists *)
Section Assoc.
  Context {A : Type}.
  Implicit Type l : list (Z * A).
  Definition sorted l : Prop := StronglySorted Z.lt (map fst l).
  Lemma aget_aset k k' (v : A) l : aget k' (aset k v l) = if k' =? k then Some v else aget k' l.
  Proof.
    induction l as [|[i c] l IH]; cbn [aset aget].
    - destruct (Z.eqb_spec k k'), (Z.eqb_spec k' k); try lia; auto.
    - destruct (Z.eqb_spec i k) as [E|E]; [|destruct (Z.ltb_spec k i)]; cbn [aget].
      + destruct (Z.eqb_spec k k'), (Z.eqb_spec k' k); try lia; auto. destruct (Z.eqb_spec i k'); try lia; auto.
      + destruct (Z.eqb_spec k k'), (Z.eqb_spec k' k); try lia; auto.
      + rewrite IH. destruct (Z.eqb_spec i k'), (Z.eqb_spec k' k); try lia; auto.
  Qed.
  Lemma aget_in k l (v : A) : aget k l = Some v -> In (k, v) l.
  Proof. induction l as [|[i c] l IH]; cbn [aget]; [discriminate|]. destruct (Z.eqb_spec i k) as [->|]; [intros [= ->]; left; auto|right; auto]. Qed.
  Lemma in_aget k l (v : A) : sorted l -> In (k, v) l -> aget k l = Some v.
  Proof.
    induction l as [|[i c] l IH]; intros S I; [destruct I|]. inversion S as [|x y S1 S2]; subst. cbn [aget]. destruct I as [[= -> ->]|I]; [rewrite Z.eqb_refl; auto|].
    destruct (Z.eqb_spec i k) as [->|]; auto. rewrite Forall_forall in S2. specialize (S2 k (in_map fst _ _ I)). lia.
  Qed.
  Lemma aget_none k l : aget k l = None <-> ~ In k (map fst l).
  Proof. induction l as [|[i c] l IH]; simpl; [tauto|]. destruct (Z.eqb_spec i k) as [->|N]; [split; [discriminate|tauto]|]. rewrite IH. split; [intros H [H1|H1]; tauto|tauto]. Qed.
  Lemma aset_keys k (v : A) l i : In i (map fst (aset k v l)) <-> i = k \/ In i (map fst l).
  Proof.
    induction l as [|[j c] l IH]; cbn [aset map fst]; [simpl; intuition|]. destruct (Z.eqb_spec j k) as [->|]; [simpl; intuition|]. destruct (k <? j); simpl; [intuition|]. rewrite IH. intuition.
  Qed.
  Lemma aset_sorted k (v : A) l : sorted l -> sorted (aset k v l).
  Proof.
    unfold sorted. induction l as [|[j c] l IH]; intros S; cbn [aset map fst]; [repeat constructor|]. inversion S as [|x y S1 S2]; subst.
    destruct (Z.eqb_spec j k) as [->|N]; [exact S|]. destruct (Z.ltb_spec k j) as [L|L]; cbn [map fst].
    - constructor; auto. constructor; auto. rewrite Forall_forall in *. intros z Hz. specialize (S2 z Hz). lia.
    - constructor; [apply IH; auto|]. rewrite Forall_forall in *. intros z Hz. apply aset_keys in Hz. destruct Hz as [->|Hz]; [lia|auto].
  Qed.
  Lemma aset_len k (v : A) l : sorted l -> length (aset k v l) = (length l + match aget k l with Some _ => 0 | None => 1 end)%nat.
  Proof.
    unfold sorted. induction l as [|[j c] l IH]; intros S; cbn [aset aget]; auto. inversion S as [|x y S1 S2]; subst.
    destruct (Z.eqb_spec j k) as [->|N]; [simpl; lia|]. destruct (Z.ltb_spec k j) as [L|L]; cbn [length]; [|rewrite IH by auto; lia].
    assert (E : aget k l = None); [|rewrite E; lia]. apply aget_none. intros H. rewrite Forall_forall in S2. specialize (S2 k H). cbn [fst] in S2. lia.
  Qed.
  Lemma adel_keys k l i : In i (map fst (adel k l)) -> In i (map fst l).
  Proof. induction l as [|[j c] l IH]; cbn [adel]; auto. destruct (j =? k); simpl; intuition. Qed.
  Lemma adel_sorted k l : sorted l -> sorted (adel k l).
  Proof.
    unfold sorted. induction l as [|[j c] l IH]; intros S; cbn [adel]; auto. inversion S as [|x y S1 S2]; subst. destruct (j =? k); auto. cbn [map fst]. constructor; [apply IH; auto|].
    rewrite Forall_forall in *. intros z Hz. apply S2. eapply adel_keys; eauto.
  Qed.
  Lemma aget_adel k k' l : sorted l -> aget k' (adel k l) = if k' =? k then None else aget k' l.
  Proof.
    unfold sorted. induction l as [|[j c] l IH]; intros S; cbn [adel aget]; [destruct (k' =? k); auto|]. inversion S as [|x y S1 S2]; subst.
    destruct (Z.eqb_spec j k) as [E|N].
    - subst j. destruct (Z.eqb_spec k' k) as [E'|N']; [|destruct (Z.eqb_spec k k'); [lia|auto]]. subst k'.
      apply aget_none. intros H. rewrite Forall_forall in S2. specialize (S2 k H). cbn [fst] in S2. lia.
    - cbn [aget]. rewrite IH by auto. destruct (Z.eqb_spec j k'), (Z.eqb_spec k' k); try lia; auto.
  Qed.
  Lemma adel_len k l : aget k l <> None -> S (length (adel k l)) = length l.
  Proof. induction l as [|[j c] l IH]; cbn [adel aget]; [tauto|]. destruct (j =? k); auto. intros H. cbn [length]. f_equal. auto. Qed.
  Lemma aset_all (P : A -> Prop) k v l : P v -> Forall (fun ic => P (snd ic)) l -> Forall (fun ic => P (snd ic)) (aset k v l).
  Proof. intros Hv. induction 1 as [|[j c] l H1 H2 IH]; cbn [aset]; [constructor; auto|]. destruct (j =? k); [constructor; auto|]. destruct (k <? j); constructor; auto. Qed.
  Lemma adel_all (P : A -> Prop) k l : Forall (fun ic => P (snd ic)) l -> Forall (fun ic => P (snd ic)) (adel k l).
  Proof. induction 1 as [|[j c] l H1 H2 IH]; cbn [adel]; auto. destruct (j =? k); auto. Qed.
End Assoc.

(** ** The tree as a map from keys to payloads *)
Inductive fwf : fptree -> Prop :=
| fwf_node alts n p : sorted alts -> n = Z.of_nat (length alts) -> Forall (fun ic => fwf (snd ic)) alts -> fwf (FPNode alts n p).
Definition pl_at (x : fptree) (key : list Z) : payload := match fp_find key x with Some n => pl_of n | None => [] end.
Lemma fwf_empty : fwf fp_empty.
Proof. constructor; auto. constructor. Qed.
Lemma fwf_child x k c : fwf x -> aget k (alts_of x) = Some c -> fwf c.
Proof. intros W E. destruct W as [alts n p S N F]. apply aget_in in E. rewrite Forall_forall in F. apply (F _ E). Qed.
Lemma pl_at_cons x k r : pl_at x (k :: r) = match aget k (alts_of x) with Some c => pl_at c r | None => [] end.
Proof. unfold pl_at. cbn [fp_find]. destruct (aget k (alts_of x)); auto. Qed.
Lemma pl_at_empty key : pl_at fp_empty key = [].
Proof. destruct key; auto. Qed.
Lemma fp_find_app a : forall b x, fp_find (a ++ b) x = match fp_find a x with Some n => fp_find b n | None => None end.
Proof. induction a as [|k a IH]; intros b x; cbn [List.app fp_find]; auto. destruct (aget k (alts_of x)); auto. Qed.
Definition key_eqb (a b : list Z) : bool := if list_eq_dec Z.eq_dec a b then true else false.
Lemma key_eqb_cons a b l m : key_eqb (a :: l) (b :: m) = (a =? b) && key_eqb l m.
Proof. unfold key_eqb. destruct (list_eq_dec Z.eq_dec (a :: l) (b :: m)) as [E|E], (Z.eqb_spec a b), (list_eq_dec Z.eq_dec l m); auto; congruence. Qed.
Lemma key_eqb_refl a : key_eqb a a = true.
Proof. unfold key_eqb. destruct (list_eq_dec Z.eq_dec a a); congruence. Qed.

Lemma fp_insert_ok g : forall key x, fwf x -> fwf (fp_insert key g x) /\ forall key', pl_at (fp_insert key g x) key' = if key_eqb key' key then g (pl_at x key) else pl_at x key'.
Proof.
  induction key as [|k r IH]; intros x W; destruct x as [alts n p]; inversion W as [a0 n0 p0 Sd N F]; subst a0 n0 p0; cbn [fp_insert].
  - split; [constructor; auto|]. intros [|k' r']; reflexivity.
  - destruct (aget k alts) as [c|] eqn:E.
    + assert (Wc : fwf c) by exact (fwf_child (FPNode alts n p) k c W E). destruct (IH c Wc) as [Wi Hi]. split.
      * constructor; [apply aset_sorted; auto|rewrite aset_len, E by auto; lia|apply aset_all; auto].
      * intros [|k' r']; auto. rewrite !pl_at_cons. cbn [alts_of]. rewrite aget_aset, key_eqb_cons, E. destruct (Z.eqb_spec k' k) as [->|]; cbn [andb]; auto. rewrite E. apply Hi.
    + destruct (IH fp_empty fwf_empty) as [Wi Hi]. split.
      * constructor; [apply aset_sorted; auto|rewrite aset_len, E by auto; lia|apply aset_all; auto].
      * intros [|k' r']; auto. rewrite !pl_at_cons. cbn [alts_of]. rewrite aget_aset, key_eqb_cons, E. destruct (Z.eqb_spec k' k) as [->|]; cbn [andb]; auto. rewrite Hi, E, !pl_at_empty. destruct (key_eqb r' r); auto.
Qed.
Lemma fp_modify_ok g : forall key x, fwf x -> fp_find key x <> None -> fwf (fp_modify key g x) /\ forall key', pl_at (fp_modify key g x) key' = if key_eqb key' key then g (pl_at x key) else pl_at x key'.
Proof.
  induction key as [|k r IH]; intros x W Hf; destruct x as [alts n p]; inversion W as [a0 n0 p0 Sd N F]; subst a0 n0 p0; cbn [fp_modify].
  - split; [constructor; auto|]. intros [|k' r']; reflexivity.
  - cbn [fp_find alts_of] in Hf. destruct (aget k alts) as [c|] eqn:E; [|tauto].
    assert (Wc : fwf c) by exact (fwf_child (FPNode alts n p) k c W E). destruct (IH c Wc Hf) as [Wi Hi]. split.
    + constructor; [apply aset_sorted; auto|rewrite aset_len, E by auto; lia|apply aset_all; auto].
    + intros [|k' r']; auto. rewrite !pl_at_cons. cbn [alts_of]. rewrite aget_aset, key_eqb_cons, E. destruct (Z.eqb_spec k' k) as [->|]; cbn [andb]; auto. rewrite E. apply Hi.
Qed.
Lemma fp_delete_ok : forall key x, fwf x -> (forall pre suf, key = pre ++ suf -> pl_at x pre = []) -> (forall ext, pl_at x (key ++ ext) = []) ->
  fwf (fst (fp_delete key x)) /\ (forall key', pl_at (fst (fp_delete key x)) key' = pl_at x key') /\ (snd (fp_delete key x) = true -> forall key', pl_at x key' = []).
Proof.
  induction key as [|k r IH]; intros x W Hp He; destruct x as [alts n p]; inversion W as [a0 n0 p0 Sd N F]; subst a0 n0 p0; cbn [fp_delete].
  - cbn [fst snd]. split; auto.
  - assert (Ep : p = []) by (apply (Hp [] (k :: r) eq_refl)). destruct (aget k alts) as [c|] eqn:E.
    + assert (Wc : fwf c) by exact (fwf_child (FPNode alts n p) k c W E).
      assert (Cc : forall key', pl_at c key' = pl_at (FPNode alts n p) (k :: key')) by (intros; rewrite pl_at_cons; cbn [alts_of]; rewrite E; auto).
      destruct (IH c Wc) as [Wi [Hi Hd]]; [intros pre suf ->; rewrite Cc; apply (Hp (k :: pre) suf); auto|intros ext; rewrite Cc; apply He|].
      destruct (fp_delete r c) as [c' d]. cbn [fst snd] in *. assert (L : S (length (adel k alts)) = length alts) by (apply adel_len; congruence). destruct d; cbn [fst snd].
      * split; [constructor; [apply adel_sorted; auto|lia|apply adel_all; auto]|].
        assert (Q : forall key', pl_at (FPNode (adel k alts) (n - 1) p) key' = pl_at (FPNode alts n p) key').
        { intros [|k' r']; auto. rewrite !pl_at_cons. cbn [alts_of]. rewrite aget_adel by auto. destruct (Z.eqb_spec k' k) as [->|]; auto. rewrite E, Hd; auto. }
        split; auto. intros Z0 key'. rewrite <- Q. assert (L0 : length (adel k alts) = 0%nat) by lia. apply length_zero_iff_nil in L0. destruct key' as [|k' r']; [auto|]. rewrite pl_at_cons. cbn [alts_of]. rewrite L0. auto.
      * split; [constructor; [apply aset_sorted; auto|rewrite aset_len, E by auto; lia|apply aset_all; auto]|]. split.
        -- intros [|k' r']; auto. rewrite !pl_at_cons. cbn [alts_of]. rewrite aget_aset. destruct (Z.eqb_spec k' k) as [->|]; auto. rewrite E. auto.
        -- intros Z0. lia.
    + cbn [fst snd]. split; auto. split; auto. intros Z0 [|k' r']; [auto|]. rewrite pl_at_cons. cbn [alts_of]. assert (alts = []) by (apply length_zero_iff_nil; lia). subst alts. auto.
Qed.

(** ** Payloads *)
Definition plin (p : payload) (t : term) (e : occ) : Prop := exists os, In (t, os) p /\ In e os.
Definition plwf (p : payload) : Prop := NoDup (map fst p).
Lemma pl_get_in t p os : pl_get t p = Some os -> In (t, os) p.
Proof. induction p as [|[s o] p IH]; cbn [pl_get]; [discriminate|]. destruct (term_eqb s t) eqn:E; [apply term_eqb_eq in E; subst; intros [= ->]; left; auto|right; auto]. Qed.
Lemma in_pl_get t p os : plwf p -> In (t, os) p -> pl_get t p = Some os.
Proof.
  induction p as [|[s o] p IH]; intros W I; [destruct I|]. inversion W as [|x y W1 W2]; subst. cbn [pl_get]. destruct I as [[= -> ->]|I]; [rewrite term_eqb_refl; auto|].
  destruct (term_eqb s t) eqn:E; auto. apply term_eqb_eq in E. subst. elim W1. apply (in_map fst _ _ I).
Qed.
Lemma pl_get_none t p : pl_get t p = None -> ~ In t (map fst p).
Proof. induction p as [|[s o] p IH]; cbn [pl_get map fst]; [intros _ []|]. destruct (term_eqb s t) eqn:E; [discriminate|]. intros H [->|I]; [rewrite term_eqb_refl in E; discriminate|apply IH; auto]. Qed.
Lemma pl_set_keys t os p x : In x (map fst (pl_set t os p)) -> x = t \/ In x (map fst p).
Proof. induction p as [|[s o] p IH]; cbn [pl_set]; [simpl; intuition|]. destruct (term_eqb s t); simpl; intuition. Qed.
Lemma pl_set_wf t os p : plwf p -> plwf (pl_set t os p).
Proof.
  unfold plwf. induction p as [|[s o] p IH]; intros W; cbn [pl_set]; [repeat constructor; auto|]. inversion W as [|x y W1 W2]; subst. destruct (term_eqb s t) eqn:E; cbn [map fst]; constructor; auto.
  intros I. apply pl_set_keys in I. destruct I as [->|I]; [rewrite term_eqb_refl in E; discriminate|tauto].
Qed.
Lemma pl_del_keys t p x : In x (map fst (pl_del t p)) -> In x (map fst p).
Proof. induction p as [|[s o] p IH]; cbn [pl_del]; auto. destruct (term_eqb s t); simpl; intuition. Qed.
Lemma pl_del_wf t p : plwf p -> plwf (pl_del t p).
Proof. unfold plwf. induction p as [|[s o] p IH]; intros W; cbn [pl_del]; auto. inversion W as [|x y W1 W2]; subst. destruct (term_eqb s t); auto. cbn [map fst]. constructor; auto. intros I. apply pl_del_keys in I. tauto. Qed.
Lemma pl_set_in t os p x o : plwf p -> In (x, o) (pl_set t os p) <-> (x = t /\ o = os) \/ (x <> t /\ In (x, o) p).
Proof.
  intros W. split.
  - intros I. apply in_pl_get in I; [|apply pl_set_wf; auto]. revert I. clear W. induction p as [|[s q] p IH]; cbn [pl_set pl_get].
    + destruct (term_eqb t x) eqn:E; [apply term_eqb_eq in E; subst; intros [= ->]; auto|discriminate].
    + destruct (term_eqb s t) eqn:E; cbn [pl_get].
      * apply term_eqb_eq in E. subst s. destruct (term_eqb t x) eqn:E2; [apply term_eqb_eq in E2; subst; intros [= ->]; auto|]. intros H. right. split; [intros ->; rewrite term_eqb_refl in E2; discriminate|]. right. apply pl_get_in. auto.
      * destruct (term_eqb s x) eqn:E2; [apply term_eqb_eq in E2; subst; intros [= ->]; right; split; [intros ->; rewrite term_eqb_refl in E; discriminate|left; auto]|].
        intros H. destruct (IH H) as [?|[? ?]]; auto. right. split; auto. right. auto.
  - clear W. intros [[-> ->]|[N I]]; induction p as [|[s q] p IH]; cbn [pl_set]; try (left; reflexivity); try destruct I.
    + destruct (term_eqb s t) eqn:E; [apply term_eqb_eq in E; subst; left; auto|right; auto].
    + subst. inversion H; subst. destruct (term_eqb x t) eqn:E; [apply term_eqb_eq in E; tauto|left; auto].
    + destruct (term_eqb s t); right; auto.
Qed.
Lemma pl_del_in t p x o : plwf p -> In (x, o) (pl_del t p) <-> x <> t /\ In (x, o) p.
Proof.
  unfold plwf. induction p as [|[s q] p IH]; intros W; cbn [pl_del]; [simpl; tauto|]. inversion W as [|? ? W1 W2]; subst. destruct (term_eqb s t) eqn:E.
  - apply term_eqb_eq in E. subst s. split.
    + intros I. split; [intros ->; apply W1; apply (in_map fst _ _ I)|right; auto].
    + intros [N [[= -> ->]|I]]; [tauto|auto].
  - cbn [In]. rewrite IH by auto. split; [intros [[= -> ->]|[A B]]; auto; split; auto; intros ->; rewrite term_eqb_refl in E; discriminate|tauto].
Qed.
Lemma occ_eqb_eq a b : occ_eqb a b = true <-> a = b.
Proof. destruct a as [c z], b as [d w]. unfold occ_eqb. cbn [fst snd]. rewrite andb_true_iff, Nat.eqb_eq, Z.eqb_eq. split; [intros [-> ->]; auto|intros [= -> ->]; auto]. Qed.
Lemma pl_insert_ok t o p : plwf p -> plwf (pl_insert t o p) /\ forall t' e, plin (pl_insert t o p) t' e <-> (t' = t /\ e = o) \/ plin p t' e.
Proof.
  intros W. unfold pl_insert. destruct (pl_get t p) as [os|] eqn:G.
  - pose proof (pl_get_in _ _ _ G) as I. destruct (existsb (occ_eqb o) os) eqn:E.
    + split; auto. intros t' e. split; auto. intros [[-> ->]|H]; auto. apply existsb_exists in E. destruct E as [o' [I' E]]. apply occ_eqb_eq in E. subst o'. exists os. auto.
    + split; [apply pl_set_wf; auto|]. intros t' e. unfold plin. split.
      * intros [os' [I1 I2]]. apply pl_set_in in I1; auto. destruct I1 as [[-> ->]|[N I1]]; [|eauto]. destruct I2 as [->|I2]; eauto.
      * intros [[-> ->]|[os' [I1 I2]]].
        -- exists (o :: os). split; [apply pl_set_in; auto|left; auto].
        -- destruct (term_eqb t' t) eqn:E2.
           ++ apply term_eqb_eq in E2. subst t'. apply in_pl_get in I1; auto. assert (os' = os) by congruence. subst os'. exists (o :: os). split; [apply pl_set_in; auto|right; auto].
           ++ exists os'. split; auto. apply pl_set_in; auto. right. split; auto. intros ->. rewrite term_eqb_refl in E2. discriminate.
  - split; [apply pl_set_wf; auto|]. pose proof (pl_get_none _ _ G) as Nn. intros t' e. unfold plin. split.
    + intros [os' [I1 I2]]. apply pl_set_in in I1; auto. destruct I1 as [[-> ->]|[N I1]]; [|eauto]. destruct I2 as [->|[]]; auto.
    + intros [[-> ->]|[os' [I1 I2]]]; [exists [o]; split; [apply pl_set_in; auto|left; auto]|]. exists os'. split; auto. apply pl_set_in; auto. right. split; auto. intros ->. apply Nn. apply (in_map fst _ _ I1).
Qed.
Lemma pl_delete_ok t sel p : plwf p -> plwf (pl_delete t sel p) /\ forall t' e, plin (pl_delete t sel p) t' e <-> plin p t' e /\ ~ (t' = t /\ sel e = true).
Proof.
  intros W. unfold pl_delete. destruct (pl_get t p) as [os|] eqn:G.
  - pose proof (pl_get_in _ _ _ G) as I.
    assert (Ft : forall e, In e (filter (fun o => negb (sel o)) os) <-> In e os /\ sel e = false) by (intros e; rewrite filter_In, negb_true_iff; tauto).
    destruct (filter (fun o => negb (sel o)) os) as [|o0 os'] eqn:Ef.
    + split; [apply pl_del_wf; auto|]. intros t' e. unfold plin. split.
      * intros [q [I1 I2]]. apply pl_del_in in I1; auto. destruct I1 as [N I1]. split; eauto. tauto.
      * intros [[q [I1 I2]] N]. exists q. split; auto. apply pl_del_in; auto. split; auto. intros ->. apply in_pl_get in I1; auto. assert (q = os) by congruence. subst q.
        apply (proj2 (Ft e)). split; auto. destruct (sel e) eqn:E; auto. elim N; auto.
    + set (os2 := o0 :: os') in *. split; [apply pl_set_wf; auto|]. intros t' e. unfold plin. split.
      * intros [q [I1 I2]]. apply pl_set_in in I1; auto. destruct I1 as [[-> ->]|[N I1]]; [|split; eauto; tauto]. apply Ft in I2. destruct I2 as [I2 E]. split; eauto. intros [_ E2]. congruence.
      * intros [[q [I1 I2]] N]. destruct (term_eqb t' t) eqn:E2.
        -- apply term_eqb_eq in E2. subst t'. apply in_pl_get in I1; auto. assert (q = os) by congruence. subst q. exists os2. split; [apply pl_set_in; auto|]. apply Ft. split; auto. destruct (sel e) eqn:E; auto. elim N; auto.
        -- exists q. split; auto. apply pl_set_in; auto. right. split; auto. intros ->. rewrite term_eqb_refl in E2. discriminate.
  - split; auto. intros t' e. pose proof (pl_get_none _ _ G) as Nn. split; [|tauto]. intros H. split; auto. intros [-> _]. destruct H as [q [I1 _]]. apply Nn. apply (in_map fst _ _ I1).
Qed.

(** ** Terms *)
Section WithSig.
  Variables (ispred : Z -> bool) (sigarity : Z -> nat).
  Notation ar := (arity sigarity).
  Notation fo := (fo_term ar).
  Lemma fo_fun f args : fo (Fun f args) <-> (0 < f)%nat /\ f <> SIG_PHONY_APP_CODE /\ Z.of_nat f <> SIG_DB_LAMBDA_CODE /\ length args = ar (Z.of_nat f) /\ Forall fo args.
  Proof.
    cbn [fo_term]. assert (E : forall l, (fix all (l : list term) : Prop := match l with [] => True | a :: r => fo a /\ all r end) l <-> Forall fo l).
    { induction l as [|a l IH]; [split; auto|]. rewrite IH. split; [intros [A B]; constructor; auto|intros H; inversion H; auto]. }
    rewrite E. tauto.
  Qed.
  Definition code (c : Z) : Prop := c = BELOW_VAR \/ c = ANY_VAR \/ c = NOT_IN_TERM \/ good_code c.
  Lemma sample_code : forall pos t, fo t -> code (sample t pos).
  Proof.
    induction pos as [|p r IH]; intros [x|f args] H; cbn [sample]; unfold code; auto.
    - apply fo_fun in H. right. right. right. split; [lia|tauto].
    - apply fo_fun in H. destruct (nth_error args p) as [a|] eqn:E; auto. apply IH. destruct H as [_ [_ [_ [_ F]]]]. rewrite Forall_forall in F. apply F. eapply nth_error_In; eauto.
  Qed.
  Definition ucompat (k i : Z) : Prop := k = i \/ (k = BELOW_VAR /\ code i) \/ (i = BELOW_VAR /\ code k) \/ (k = ANY_VAR /\ good_code i) \/ (i = ANY_VAR /\ good_code k).
  Definition mcompat (k i : Z) : Prop := k = i \/ (k = BELOW_VAR /\ code i) \/ (k = ANY_VAR /\ good_code i).
  Lemma sample_unif : forall pos s t, fo s -> fo t -> unifiable s t -> ucompat (sample s pos) (sample t pos).
  Proof.
    induction pos as [|p r IH]; intros s t Hs Ht [sg [tau E]].
    - destruct s as [x|f a], t as [y|g b]; cbn [sample]; unfold ucompat; auto.
      + apply fo_fun in Ht. right. right. right. left. split; auto. split; [lia|tauto].
      + apply fo_fun in Hs. right. right. right. right. split; auto. split; [lia|tauto].
      + cbn [app] in E. injection E as -> _. auto.
    - destruct s as [x|f a].
      { right. left. split; auto. apply sample_code. auto. }
      destruct t as [y|g b].
      { right. right. left. split; auto. apply sample_code. auto. }
      cbn [app] in E. injection E as -> E. cbn [sample]. apply fo_fun in Hs, Ht. destruct Hs as [_ [_ [_ [_ Fs]]]], Ht as [_ [_ [_ [_ Ft]]]].
      assert (L : nth_error (map (app sg) a) p = nth_error (map (app tau) b) p) by (rewrite E; auto). rewrite !nth_error_map in L.
      destruct (nth_error a p) as [u|] eqn:E1, (nth_error b p) as [v|] eqn:E2; cbn [option_map] in L; try discriminate; [|left; auto]. injection L as L.
      rewrite Forall_forall in Fs, Ft. apply IH; [apply Fs|apply Ft|exists sg, tau; auto]; eapply nth_error_In; eauto.
  Qed.
  Lemma sample_match : forall pos s t, fo s -> fo t -> instance s t -> mcompat (sample s pos) (sample t pos).
  Proof.
    induction pos as [|p r IH]; intros s t Hs Ht [sg E].
    - destruct s as [x|f a], t as [y|g b]; cbn [sample]; unfold mcompat; auto; try discriminate E.
      + apply fo_fun in Ht. right. right. split; auto. split; [lia|tauto].
      + cbn [app] in E. injection E as -> _. auto.
    - destruct s as [x|f a].
      { right. left. split; auto. apply sample_code. auto. }
      destruct t as [y|g b]; [discriminate E|]. cbn [app] in E. injection E as -> E. cbn [sample]. apply fo_fun in Hs, Ht. destruct Hs as [_ [_ [_ [_ Fs]]]], Ht as [_ [_ [_ [_ Ft]]]]. subst b.
      rewrite nth_error_map. destruct (nth_error a p) as [u|] eqn:E1; cbn [option_map]; [|left; auto].
      rewrite Forall_forall in Fs, Ft. apply IH; [apply Fs; eapply nth_error_In; eauto| |exists sg; auto]. apply Ft. apply in_map. eapply nth_error_In; eauto.
  Qed.

  (** ** The searches *)
  Lemma uwv_good c : good_code c -> unifies_with_var ispred c = true.
  Proof. intros [A B]. unfold unifies_with_var. destruct (Z.eqb_spec c SIG_DB_LAMBDA_CODE); [tauto|]. rewrite !orb_true_r. auto. Qed.
  Lemma find_cons key x k c n : aget k (alts_of x) = Some c -> fp_find (k :: key) x = Some n -> fp_find key c = Some n.
  Proof. intros E H. cbn [fp_find] in H. rewrite E in H. auto. Qed.
  Lemma find_unif_complete : forall key key' x n, Forall2 ucompat key key' -> (forall k, In k key -> code k) -> fp_find key' x = Some n -> In (pl_of n) (find_unif ispred key x).
  Proof.
    intros key key' x n F. revert x. induction F as [|k i key key' C F IH]; intros x G E.
    - injection E as ->. left. auto.
    - cbn [fp_find] in E. destruct (aget i (alts_of x)) as [c|] eqn:A; [|discriminate]. assert (R : In (pl_of n) (find_unif ispred key c)) by (apply IH; auto; intros; apply G; right; auto).
      assert (Gk : code k) by (apply G; left; auto).
      assert (It : forall start, start <= i -> (i <= 0 \/ good_code i) -> In (pl_of n) (flat_map (fun ic => if (fst ic <=? 0) || unifies_with_var ispred (fst ic) then find_unif ispred key (snd ic) else []) (filter (fun ic => start <=? fst ic) (alts_of x)))).
      { intros start H1 H2. apply in_flat_map. exists (i, c). split; [apply filter_In; split; [apply aget_in; auto|cbn [fst]; lia]|]. cbn [fst snd].
        destruct H2 as [H2|H2]; [destruct (Z.leb_spec i 0); [auto|lia]|rewrite uwv_good by auto; rewrite orb_true_r; auto]. }
      cbn [find_unif]. unfold ucompat, code, good_code, BELOW_VAR, ANY_VAR, NOT_IN_TERM in *.
      destruct (Z.ltb_spec 0 k) as [P|P].
      + assert (Uk : unifies_with_var ispred k = true) by (apply uwv_good; unfold good_code; lia). rewrite Uk. apply in_or_app.
        destruct (Z.eq_dec i k) as [->|N]; [left; rewrite A; auto|]. right. apply in_or_app. destruct (Z.eq_dec i (-1)) as [->|N1]; [left; rewrite A; auto|]. right. assert (i = -2) as -> by lia. rewrite A. auto.
      + destruct (Z.eqb_spec k 0) as [K0|K0].
        * apply in_or_app. destruct (Z.eq_dec i 0) as [->|N]; [left; rewrite A; auto|]. right. assert (i = -2) as -> by lia. rewrite A. auto.
        * assert (Kc : (k =? -2) || (k =? -1) = true) by lia. rewrite Kc. apply in_or_app. destruct (Z.eq_dec i (-1)) as [->|N1]; [left; rewrite A; auto|]. right. apply in_or_app.
          destruct (Z.eq_dec i (-2)) as [->|N2]; [left; rewrite A; auto|]. right. apply It; destruct (Z.eqb_spec k (-2)); lia.
  Qed.
  Lemma find_match_complete : forall key key' x n, Forall2 mcompat key key' -> (forall k, In k key -> code k) -> fp_find key' x = Some n -> In (pl_of n) (find_matchable ispred key x).
  Proof.
    intros key key' x n F. revert x. induction F as [|k i key key' C F IH]; intros x G E.
    - injection E as ->. left. auto.
    - cbn [fp_find] in E. destruct (aget i (alts_of x)) as [c|] eqn:A; [|discriminate]. assert (R : In (pl_of n) (find_matchable ispred key c)) by (apply IH; auto; intros; apply G; right; auto).
      assert (Gk : code k) by (apply G; left; auto).
      assert (It : forall start, start <= i -> (i <= 0 \/ good_code i) -> In (pl_of n) (flat_map (fun ic => if (fst ic <=? 0) || unifies_with_var ispred (fst ic) then find_matchable ispred key (snd ic) else []) (filter (fun ic => start <=? fst ic) (alts_of x)))).
      { intros start H1 H2. apply in_flat_map. exists (i, c). split; [apply filter_In; split; [apply aget_in; auto|cbn [fst]; lia]|]. cbn [fst snd].
        destruct H2 as [H2|H2]; [destruct (Z.leb_spec i 0); [auto|lia]|rewrite uwv_good by auto; rewrite orb_true_r; auto]. }
      cbn [find_matchable]. unfold mcompat, code, good_code, BELOW_VAR, ANY_VAR, NOT_IN_TERM in *.
      destruct (Z.ltb_spec 0 k) as [P|P].
      + assert (i = k) as -> by lia. rewrite A. auto.
      + destruct (Z.eqb_spec k 0) as [K0|K0].
        * assert (i = 0) as -> by lia. rewrite A. auto.
        * assert (Kc : (k =? -2) || (k =? -1) = true) by lia. rewrite Kc. apply in_or_app. destruct (Z.eq_dec i (-1)) as [->|N1]; [left; rewrite A; auto|]. right. apply in_or_app.
          destruct (Z.eqb_spec k (-2)) as [K2|K2].
          -- destruct (Z.eq_dec i (-2)) as [->|N2]; [left; rewrite A; auto|]. right. apply It; lia.
          -- right. apply It; lia.
  Qed.
  (** everything found is in the tree *)
  Definition found (x : fptree) (p : payload) : Prop := exists key, fp_find key x <> None /\ pl_at x key = p.
  Lemma found_child x i c p : aget i (alts_of x) = Some c -> found c p -> found x p.
  Proof. intros A [key [N E]]. exists (i :: key). rewrite pl_at_cons. cbn [fp_find]. rewrite A. auto. Qed.
  Lemma found_sub x key c p : fp_find key x = Some c -> found c p -> found x p.
  Proof. intros A [k [N E]]. exists (key ++ k). unfold pl_at. rewrite fp_find_app, A. auto. Qed.
  Lemma found_self x : found x (pl_of x).
  Proof. exists []. split; [discriminate|auto]. Qed.
  Lemma sorted_of x : fwf x -> sorted (alts_of x).
  Proof. intros []; auto. Qed.
  Lemma find_unif_sound : forall key x p, fwf x -> In p (find_unif ispred key x) -> found x p.
  Proof.
    induction key as [|k r IH]; intros x p W I; cbn [find_unif] in I; [destruct I as [<-|[]]; apply found_self|].
    assert (Ha : forall i, In p (match aget i (alts_of x) with Some c => find_unif ispred r c | None => [] end) -> found x p).
    { intros i H. destruct (aget i (alts_of x)) as [c|] eqn:A; [|destruct H]. eapply found_child; [exact A|]. apply IH; auto. eapply fwf_child; eauto. }
    assert (Hf : forall st, In p (flat_map (fun ic => if (fst ic <=? 0) || unifies_with_var ispred (fst ic) then find_unif ispred r (snd ic) else []) (filter (fun ic => st <=? fst ic) (alts_of x))) -> found x p).
    { intros st H. apply in_flat_map in H. destruct H as [[i c] [H1 H2]]. apply filter_In in H1. destruct H1 as [H1 _]. cbn [fst snd] in H2. destruct ((i <=? 0) || unifies_with_var ispred i); [|destruct H2].
      apply in_aget in H1; [|apply sorted_of; auto]. eapply found_child; [exact H1|]. apply IH; auto. eapply fwf_child; eauto. }
    destruct (0 <? k).
    - apply in_app_or in I. destruct I as [I|I]; [eauto|]. destruct (unifies_with_var ispred k); [|destruct I]. apply in_app_or in I. destruct I; eauto.
    - destruct (k =? NOT_IN_TERM); [apply in_app_or in I; destruct I; eauto|]. destruct ((k =? BELOW_VAR) || (k =? ANY_VAR)); [|destruct I].
      apply in_app_or in I. destruct I as [I|I]; [eauto|]. apply in_app_or in I. destruct I; eauto.
  Qed.
  Lemma find_match_sound : forall key x p, fwf x -> In p (find_matchable ispred key x) -> found x p.
  Proof.
    induction key as [|k r IH]; intros x p W I; cbn [find_matchable] in I; [destruct I as [<-|[]]; apply found_self|].
    assert (Ha : forall i, In p (match aget i (alts_of x) with Some c => find_matchable ispred r c | None => [] end) -> found x p).
    { intros i H. destruct (aget i (alts_of x)) as [c|] eqn:A; [|destruct H]. eapply found_child; [exact A|]. apply IH; auto. eapply fwf_child; eauto. }
    assert (Hf : forall st, In p (flat_map (fun ic => if (fst ic <=? 0) || unifies_with_var ispred (fst ic) then find_matchable ispred r (snd ic) else []) (filter (fun ic => st <=? fst ic) (alts_of x))) -> found x p).
    { intros st H. apply in_flat_map in H. destruct H as [[i c] [H1 H2]]. apply filter_In in H1. destruct H1 as [H1 _]. cbn [fst snd] in H2. destruct ((i <=? 0) || unifies_with_var ispred i); [|destruct H2].
      apply in_aget in H1; [|apply sorted_of; auto]. eapply found_child; [exact H1|]. apply IH; auto. eapply fwf_child; eauto. }
    destruct (0 <? k); [eauto|]. destruct (k =? NOT_IN_TERM); [eauto|]. destruct ((k =? BELOW_VAR) || (k =? ANY_VAR)); [|destruct I].
    apply in_app_or in I. destruct I as [I|I]; [eauto|]. apply in_app_or in I. destruct I as [I|I]; [|eauto]. destruct (k =? BELOW_VAR); [eauto|destruct I].
  Qed.

  (** ** Discrimination trees *)
  Definition fl (ts : list term) : list Z := flat_map fcodes ts.
  Lemma fl_var x r : fl (Var x :: r) = ANY_VAR :: fl r.
  Proof. reflexivity. Qed.
  Lemma fl_fun f a r : f <> SIG_PHONY_APP_CODE -> fl (Fun f a :: r) = Z.of_nat f :: fl (a ++ r).
  Proof. intros N. unfold fl. cbn [flat_map fcodes]. destruct (Nat.eqb_spec f SIG_PHONY_APP_CODE); [tauto|]. cbn [List.app]. rewrite flat_map_app. auto. Qed.
  Lemma skip_terms_eq m alts n p : skip_terms sigarity (S m) (FPNode alts n p) = flat_map (fun ic => skip_terms sigarity (m + ar (fst ic)) (snd ic)) alts.
  Proof. cbn [skip_terms]. induction alts as [|[i c] r IH]; auto. cbn [flat_map fst snd]. rewrite <- IH. auto. Qed.
  Lemma skip_terms_0 x : skip_terms sigarity 0 x = [x].
  Proof. destruct x. auto. Qed.
  Lemma ar_any : ar ANY_VAR = 0%nat.
  Proof. reflexivity. Qed.
  Lemma skip_terms_ok : forall b ts x n, (length (fl ts) < b)%nat -> Forall fo ts -> fp_find (fl ts) x = Some n -> In n (skip_terms sigarity (length ts) x).
  Proof.
    induction b as [|b IH]; intros ts x n L F E; [lia|]. destruct ts as [|t ts].
    - injection E as ->. rewrite skip_terms_0. left. auto.
    - inversion F as [|? ? F1 F2]; subst. cbn [length]. destruct x as [alts cn p]. rewrite skip_terms_eq. apply in_flat_map. destruct t as [v|f a].
      + rewrite fl_var in *. cbn [fp_find alts_of] in E. destruct (aget ANY_VAR alts) as [c|] eqn:A; [|discriminate]. exists (ANY_VAR, c). split; [apply aget_in; auto|]. cbn [fst snd].
        rewrite ar_any, Nat.add_0_r. apply IH; auto. cbn [length] in L. lia.
      + apply fo_fun in F1. destruct F1 as [P0 [P1 [P2 [P3 P4]]]]. rewrite fl_fun in * by auto. cbn [fp_find alts_of] in E. destruct (aget (Z.of_nat f) alts) as [c|] eqn:A; [|discriminate].
        exists (Z.of_nat f, c). split; [apply aget_in; auto|]. cbn [fst snd]. rewrite <- P3. replace (length ts + length a)%nat with (length (a ++ ts)) by (rewrite app_length; lia). apply IH; auto; [cbn [length] in L; lia|]. apply Forall_app. auto.
  Qed.
  Lemma skip_terms_sound : forall x m n, fwf x -> In n (skip_terms sigarity m x) -> fwf n /\ exists key, fp_find key x = Some n.
  Proof.
    induction x as [alts cn p IH] using fptree_ind'. intros m n W I. destruct m as [|m]; [rewrite skip_terms_0 in I; destruct I as [<-|[]]; split; auto; exists []; auto|].
    rewrite skip_terms_eq in I. apply in_flat_map in I. destruct I as [[i c] [I1 I2]]. cbn [fst snd] in I2. rewrite Forall_forall in IH. pose proof (in_aget _ _ _ (sorted_of _ W) I1) as A. cbn [alts_of] in A.
    destruct (IH _ I1 (m + ar i)%nat n) as [Wn [key E]]; [eapply (fwf_child (FPNode alts cn p)); eauto|auto|]. split; auto. exists (i :: key). cbn [fp_find alts_of]. rewrite A. auto.
  Qed.
  Lemma dt_match_complete : forall b qs ts x n, (length (fl qs) < b)%nat -> Forall fo qs -> Forall fo ts -> Forall2 instance qs ts -> fp_find (fl ts) x = Some n -> In (pl_of n) (dt_matchable ispred sigarity (fl qs) x).
  Proof.
    induction b as [|b IH]; intros qs ts x n L Fq Ft F E; [lia|]. destruct F as [|q t qs ts H F]; [injection E as ->; left; auto|]. inversion Fq as [|? ? Fq1 Fq2]; subst. inversion Ft as [|? ? Ft1 Ft2]; subst.
    destruct q as [v|f a].
    - rewrite fl_var in *. cbn [dt_matchable]. cbn [length] in L. rewrite Z.eqb_refl. apply in_flat_map. destruct t as [w|g bs].
      + rewrite fl_var in E. cbn [fp_find] in E. destruct (aget ANY_VAR (alts_of x)) as [c|] eqn:A; [|discriminate]. exists (ANY_VAR, c). split; [apply filter_In; split; [apply aget_in; auto|auto]|].
        cbn [fst snd]. rewrite ar_any, skip_terms_0. cbn [Z.leb ANY_VAR Z.compare orb flat_map]. rewrite app_nil_r. apply (IH qs ts); auto. lia.
      + apply fo_fun in Ft1. destruct Ft1 as [P0 [P1 [P2 [P3 P4]]]]. rewrite fl_fun in E by auto. cbn [fp_find] in E. destruct (aget (Z.of_nat g) (alts_of x)) as [c|] eqn:A; [|discriminate].
        exists (Z.of_nat g, c). split; [apply filter_In; split; [apply aget_in; auto|cbn [fst]; unfold BELOW_VAR; lia]|]. cbn [fst snd]. rewrite uwv_good by (split; auto; lia). rewrite orb_true_r.
        unfold fl in E. rewrite flat_map_app, fp_find_app in E. destruct (fp_find (flat_map fcodes bs) c) as [n1|] eqn:E1; [|discriminate].
        apply in_flat_map. exists n1. split; [rewrite <- P3; eapply skip_terms_ok; eauto|]. apply (IH qs ts); auto. lia.
    - destruct H as [sg H]. destruct t as [w|g bs]; [discriminate|]. cbn [app] in H. injection H as -> <-. apply fo_fun in Fq1, Ft1. destruct Fq1 as [P0 [P1 [P2 [P3 P4]]]], Ft1 as [_ [_ [_ [_ P5]]]].
      rewrite fl_fun in * by auto. cbn [length] in L. cbn [fp_find] in E. destruct (aget (Z.of_nat g) (alts_of x)) as [c|] eqn:A; [|discriminate].
      cbn [dt_matchable]. destruct (Z.eqb_spec (Z.of_nat g) ANY_VAR) as [Q|_]; [unfold ANY_VAR in Q; lia|]. rewrite A. apply (IH (a ++ qs) (map (app sg) a ++ ts)); auto; [lia|apply Forall_app; auto|apply Forall_app; auto|].
      apply Forall2_app; auto. clear. induction a; cbn [map]; constructor; auto. exists sg. auto.
  Qed.
  Lemma dt_match_sound : forall key x p, fwf x -> In p (dt_matchable ispred sigarity key x) -> found x p.
  Proof.
    induction key as [|k r IH]; intros x p W I; cbn [dt_matchable] in I; [destruct I as [<-|[]]; apply found_self|].
    destruct (k =? ANY_VAR).
    - apply in_flat_map in I. destruct I as [[i c] [I1 I2]]. apply filter_In in I1. destruct I1 as [I1 _]. cbn [fst snd] in I2. destruct ((i <=? 0) || unifies_with_var ispred i); [|destruct I2].
      pose proof (in_aget _ _ _ (sorted_of _ W) I1) as A. apply in_flat_map in I2. destruct I2 as [n [I2 I3]]. destruct (skip_terms_sound c (ar i) n) as [Wn [key E]]; [eapply fwf_child; eauto|auto|].
      eapply found_child; [exact A|]. eapply found_sub; [exact E|]. apply IH; auto.
    - destruct (aget k (alts_of x)) as [c|] eqn:A; [|destruct I]. eapply found_child; [exact A|]. apply IH; auto. eapply fwf_child; eauto.
  Qed.
  Lemma skip_key_ok : forall b ts rest, (length (fl ts) < b)%nat -> Forall fo ts -> skip_key sigarity (length ts) (fl ts ++ rest) = Some rest.
  Proof.
    induction b as [|b IH]; intros ts rest L F; [lia|]. destruct ts as [|t ts]; [destruct rest; reflexivity|]. inversion F as [|? ? F1 F2]; subst. cbn [length]. destruct t as [v|f a].
    - rewrite fl_var in *. cbn [List.app skip_key]. rewrite ar_any, Nat.add_0_r. apply IH; auto. cbn [length] in L. lia.
    - apply fo_fun in F1. destruct F1 as [P0 [P1 [P2 [P3 P4]]]]. rewrite fl_fun in * by auto. cbn [List.app skip_key]. rewrite <- P3. replace (length ts + length a)%nat with (length (a ++ ts)) by (rewrite app_length; lia).
      apply IH; [cbn [length] in L; lia|]. apply Forall_app. auto.
  Qed.
  Lemma concat_some_ok {A} (l : list (option (list A))) : Forall (fun o => o <> None) l -> exists r, concat_some l = Some r /\ forall a, In a r <-> exists s, In (Some s) l /\ In a s.
  Proof.
    induction 1 as [|o l N F [r [E H]]]; [exists []; split; auto; intros a; split; [intros []|intros [s [[] _]]]|]. destruct o as [s|]; [|tauto]. cbn [concat_some]. rewrite E. exists (s ++ r). split; auto.
    intros a. rewrite in_app_iff, H. split.
    - intros [I|[s' [I1 I2]]]; [exists s; split; auto; left; auto|exists s'; split; auto; right; auto].
    - intros [s' [[[= ->]|I1] I2]]; eauto.
  Qed.
  Lemma dt_unif_total : forall b qs x, (length (fl qs) < b)%nat -> Forall fo qs -> dt_unif ispred sigarity b (fl qs) x <> None.
  Proof.
    induction b as [|b IH]; intros qs x L F; [lia|]. destruct qs as [|q qs]; [discriminate|]. inversion F as [|? ? F1 F2]; subst. destruct q as [v|f a].
    - rewrite fl_var in *. cbn [dt_unif]. rewrite Z.eqb_refl. cbn [length] in L. edestruct (@concat_some_ok payload) as [r [-> _]]; [|discriminate]. rewrite Forall_forall. intros o I.
      apply in_flat_map in I. destruct I as [ic [_ I]]. destruct ((fst ic <=? 0) || unifies_with_var ispred (fst ic)); [|destruct I]. apply in_map_iff in I. destruct I as [n [<- _]]. apply IH; auto. lia.
    - apply fo_fun in F1. destruct F1 as [P0 [P1 [P2 [P3 P4]]]]. rewrite fl_fun in * by auto. cbn [length] in L. cbn [dt_unif]. destruct (Z.eqb_spec (Z.of_nat f) ANY_VAR) as [Q|_]; [unfold ANY_VAR in Q; lia|].
      edestruct (@concat_some_ok payload) as [r [-> _]]; [|discriminate]. constructor; [|constructor; [|constructor]].
      + destruct (aget (Z.of_nat f) (alts_of x)); [|discriminate]. apply IH; [lia|apply Forall_app; auto].
      + destruct ((Z.of_nat f <=? 0) || unifies_with_var ispred (Z.of_nat f)); [|discriminate]. destruct (aget ANY_VAR (alts_of x)); [|discriminate]. rewrite <- P3. unfold fl. rewrite flat_map_app. fold (fl a) (fl qs).
        rewrite (skip_key_ok (S (length (fl a)))) by auto. apply IH; auto. unfold fl in L. rewrite flat_map_app, app_length in L. unfold fl. lia.
  Qed.
  Lemma dt_unif_complete : forall b qs ts x n r, (length (fl qs) < b)%nat -> Forall fo qs -> Forall fo ts -> Forall2 unifiable qs ts -> fp_find (fl ts) x = Some n ->
    dt_unif ispred sigarity b (fl qs) x = Some r -> In (pl_of n) r.
  Proof.
    induction b as [|b IH]; intros qs ts x n r L Fq Ft F E D; [lia|]. destruct F as [|q t qs ts H F]; [injection E as ->; injection D as <-; left; auto|]. inversion Fq as [|? ? Fq1 Fq2]; subst. inversion Ft as [|? ? Ft1 Ft2]; subst.
    destruct q as [v|f a].
    - rewrite fl_var in *. cbn [dt_unif] in D. cbn [length] in L. rewrite Z.eqb_refl in D. revert D. edestruct (@concat_some_ok payload) as [r' [-> Hr]]; [|intros [= <-]].
      { rewrite Forall_forall. intros o I. apply in_flat_map in I. destruct I as [ic [_ I]]. destruct ((fst ic <=? 0) || unifies_with_var ispred (fst ic)); [|destruct I]. apply in_map_iff in I. destruct I as [n' [<- _]]. apply dt_unif_total; auto. lia. }
      apply Hr. clear Hr. destruct t as [w|g bs].
      + rewrite fl_var in E. cbn [fp_find] in E. destruct (aget ANY_VAR (alts_of x)) as [c|] eqn:A; [|discriminate]. destruct (dt_unif ispred sigarity b (fl qs) c) as [s|] eqn:Es; [|elim (dt_unif_total b qs c); auto; lia].
        exists s. split; [|apply (IH qs ts c n s); auto; lia]. apply in_flat_map. exists (ANY_VAR, c). split; [apply filter_In; split; [apply aget_in; auto|auto]|].
        cbn [fst snd]. rewrite ar_any, skip_terms_0. cbn. left. auto.
      + apply fo_fun in Ft1. destruct Ft1 as [P0 [P1 [P2 [P3 P4]]]]. rewrite fl_fun in E by auto. cbn [fp_find] in E. destruct (aget (Z.of_nat g) (alts_of x)) as [c|] eqn:A; [|discriminate].
        unfold fl in E. rewrite flat_map_app, fp_find_app in E. destruct (fp_find (flat_map fcodes bs) c) as [n1|] eqn:E1; [|discriminate].
        destruct (dt_unif ispred sigarity b (fl qs) n1) as [s|] eqn:Es; [|elim (dt_unif_total b qs n1); auto; lia].
        exists s. split; [|apply (IH qs ts n1 n s); auto; lia]. apply in_flat_map. exists (Z.of_nat g, c). split; [apply filter_In; split; [apply aget_in; auto|cbn [fst]; unfold BELOW_VAR; lia]|]. cbn [fst snd]. rewrite uwv_good by (split; auto; lia). rewrite orb_true_r.
        apply in_map_iff. exists n1. split; auto. rewrite <- P3. eapply skip_terms_ok; eauto.
    - apply fo_fun in Fq1. destruct Fq1 as [P0 [P1 [P2 [P3 P4]]]]. rewrite fl_fun in * by auto. cbn [length] in L. cbn [dt_unif] in D. destruct (Z.eqb_spec (Z.of_nat f) ANY_VAR) as [Q|_]; [unfold ANY_VAR in Q; lia|].
      rewrite (uwv_good (Z.of_nat f)) in D by (split; auto; lia). rewrite orb_true_r in D. rewrite <- P3 in D. unfold fl in D, L. rewrite flat_map_app in D, L. rewrite app_length in L. fold (fl a) (fl qs) in D, L.
      rewrite (skip_key_ok (S (length (fl a)))) in D by auto. revert D. edestruct (@concat_some_ok payload) as [r' [-> Hr]]; [|intros [= <-]].
      { constructor; [|constructor; [|constructor]].
        - destruct (aget (Z.of_nat f) (alts_of x)); [|discriminate]. replace (fl a ++ fl qs) with (fl (a ++ qs)) by apply flat_map_app. apply dt_unif_total; [unfold fl; rewrite flat_map_app, app_length; fold (fl a) (fl qs); lia|apply Forall_app; auto].
        - destruct (aget ANY_VAR (alts_of x)); [|discriminate]. apply dt_unif_total; auto. lia. }
      apply Hr. clear Hr. destruct t as [w|g bs].
      + rewrite fl_var in E. cbn [fp_find] in E. destruct (aget ANY_VAR (alts_of x)) as [c|] eqn:A; [|discriminate]. destruct (dt_unif ispred sigarity b (fl qs) c) as [s|] eqn:Es; [|elim (dt_unif_total b qs c); auto; lia].
        exists s. split; [right; left; auto|]. apply (IH qs ts c n s); auto. lia.
      + destruct H as [sg [tau H]]. cbn [app] in H. injection H as -> H. apply fo_fun in Ft1. destruct Ft1 as [_ [_ [_ [_ P5]]]]. rewrite fl_fun in E by auto. cbn [fp_find] in E.
        destruct (aget (Z.of_nat g) (alts_of x)) as [c|] eqn:A; [|discriminate]. assert (Lq : (length (fl (a ++ qs)) < b)%nat) by (unfold fl; rewrite flat_map_app, app_length; fold (fl a) (fl qs); lia).
        assert (Fa : Forall fo (a ++ qs)) by (apply Forall_app; auto). destruct (dt_unif ispred sigarity b (fl (a ++ qs)) c) as [s|] eqn:Es; [|elim (dt_unif_total b (a ++ qs) c); auto].
        exists s. split; [left; unfold fl in Es; rewrite flat_map_app in Es; exact Es|]. apply (IH (a ++ qs) (bs ++ ts) c n s); auto; [apply Forall_app; auto|].
        apply Forall2_app; auto. clear - H. revert bs H. induction a as [|u a IHa]; intros [|v bs] H; try discriminate; constructor; injection H as H1 H2; auto. exists sg, tau. auto.
  Qed.
  Lemma dt_unif_sound : forall b key x r p, fwf x -> dt_unif ispred sigarity b key x = Some r -> In p r -> found x p.
  Proof.
    assert (CS : forall (l : list (option (list payload))) r, concat_some l = Some r -> forall p, In p r -> exists s, In (Some s) l /\ In p s).
    { induction l as [|[s|] l IHl]; intros r E p I; cbn [concat_some] in E; [injection E as <-; destruct I| |discriminate]. destruct (concat_some l) as [r'|]; [|discriminate]. injection E as <-.
      apply in_app_or in I. destruct I as [I|I]; [exists s; split; auto; left; auto|]. destruct (IHl _ eq_refl p I) as [s' [I1 I2]]. exists s'. split; auto. right. auto. }
    induction b as [|b IH]; intros key x r p W D I; [discriminate|]. cbn [dt_unif] in D. destruct key as [|k key]; [injection D as <-; destruct I as [<-|[]]; apply found_self|]. destruct (k =? ANY_VAR).
    - destruct (CS _ _ D p I) as [s [I1 I2]]. apply in_flat_map in I1. destruct I1 as [[i c] [I1 I3]]. apply filter_In in I1. destruct I1 as [I1 _]. cbn [fst snd] in I3. destruct ((i <=? 0) || unifies_with_var ispred i); [|destruct I3].
      pose proof (in_aget _ _ _ (sorted_of _ W) I1) as A. apply in_map_iff in I3. destruct I3 as [n [E3 I3]]. destruct (skip_terms_sound c (ar i) n) as [Wn [key' E]]; [eapply fwf_child; eauto|auto|].
      eapply found_child; [exact A|]. eapply found_sub; [exact E|]. eapply IH; eauto.
    - destruct (CS _ _ D p I) as [s [I1 I2]]. destruct I1 as [I1|[I1|[]]].
      + destruct (aget k (alts_of x)) as [c|] eqn:A; [|injection I1 as <-; destruct I2]. eapply found_child; [exact A|]. eapply IH; eauto. eapply fwf_child; eauto.
      + destruct ((k <=? 0) || unifies_with_var ispred k); [|injection I1 as <-; destruct I2]. destruct (aget ANY_VAR (alts_of x)) as [c|] eqn:A; [|injection I1 as <-; destruct I2].
        destruct (skip_key sigarity (ar k) key) as [key'|]; [|discriminate]. eapply found_child; [exact A|]. eapply IH; eauto. eapply fwf_child; eauto.
  Qed.
End WithSig.

(** ** Keys *)
Lemma skip_pos_ok p rest : skip_pos (map Z.of_nat p ++ -1 :: rest) = rest.
Proof. induction p as [|n p IH]; cbn [map List.app skip_pos]; auto. destruct (Z.eqb_spec (Z.of_nat n) (-1)); [lia|auto]. Qed.
Lemma flex_sample_ok rest : forall p t, flex_sample t (map Z.of_nat p ++ -1 :: rest) = (sample t p, rest).
Proof.
  induction p as [|n p IH]; intros t; [reflexivity|]. change (map Z.of_nat (n :: p) ++ -1 :: rest) with (Z.of_nat n :: (map Z.of_nat p ++ -1 :: rest)). cbn [flex_sample sample].
  destruct (Z.eqb_spec (Z.of_nat n) (-1)); [lia|]. destruct t as [x|f args]; [f_equal; apply (skip_pos_ok (n :: p))|]. rewrite Nat2Z.id. destruct (nth_error args n); auto. f_equal. apply (skip_pos_ok (n :: p)).
Qed.
Lemma flex_key_ok t : forall ps fuel, (length ps < fuel)%nat -> flex_key fuel t (flat_map (fun p => map Z.of_nat p ++ [-1]) ps ++ [-2]) = map (sample t) ps.
Proof.
  induction ps as [|p ps IH]; intros [|n] L; cbn [length] in L; try lia; [reflexivity|]. cbn [flat_map map]. rewrite <- !app_assoc. cbn [List.app]. set (rest := flat_map _ ps ++ [-2]) in *.
  cbn [flex_key]. rewrite flex_sample_ok. destruct (map Z.of_nat p ++ -1 :: rest) as [|z r] eqn:E; [destruct p; discriminate|].
  destruct (Z.eqb_spec z (-2)) as [->|]; [destruct p as [|m p]; cbn in E; injection E; intros; lia|]. f_equal. apply IH. lia.
Qed.
Lemma flex_len ps : (length ps < length (flat_map (fun p => map Z.of_nat p ++ [(-1)%Z]) ps ++ [(-2)%Z]))%nat.
Proof. induction ps as [|p ps IH]; [cbn; lia|]. cbn [flat_map length]. rewrite <- app_assoc, app_length, app_length. cbn [length]. lia. Qed.

Section Keys.
  Variables (ispred : Z -> bool) (sigarity : Z -> nat).
  Notation ar := (arity sigarity).
  Notation fo := (fo_term ar).
  Lemma pos_codes ps t : fo t -> forall k, In k (map (sample t) ps) -> code k.
  Proof. intros F k I. apply in_map_iff in I. destruct I as [p [<- _]]. apply (sample_code sigarity). auto. Qed.
  Lemma fpfp_cases pp fr pr t : fo t -> good_code fr -> good_code pr -> fpfp_key pp fr pr t = [match t with Var _ => ANY_VAR | Fun f _ => if pp f then pr else fr end].
  Proof. intros F G1 G2. destruct t as [x|f a]; auto. apply fo_fun in F. cbn [fpfp_key]. destruct (Z.ltb_spec 0 (Z.of_nat f)); [auto|lia]. Qed.
  Lemma key_codes fn t : fpfun_ok fn -> fn <> FPdt -> fo t -> forall k, In k (fp_key fn t) -> code k.
  Proof.
    intros O N F. destruct fn as [ps|seq|pp fr pr|]; cbn [fp_key fpfun_ok] in *; [apply pos_codes; auto| | |tauto].
    - destruct O as [ps ->]. rewrite flex_key_ok by apply flex_len. apply pos_codes; auto.
    - destruct O as [G1 G2]. rewrite fpfp_cases by auto. intros k [<-|[]]. unfold code. destruct t as [x|f a]; auto. destruct (pp f); auto.
  Qed.
  Lemma pos_unif ps q t : fo q -> fo t -> unifiable q t -> Forall2 ucompat (map (sample q) ps) (map (sample t) ps).
  Proof. intros A B C. induction ps; cbn [map]; constructor; auto. apply (sample_unif sigarity); auto. Qed.
  Lemma pos_match ps q t : fo q -> fo t -> instance q t -> Forall2 mcompat (map (sample q) ps) (map (sample t) ps).
  Proof. intros A B C. induction ps; cbn [map]; constructor; auto. apply (sample_match sigarity); auto. Qed.
  Lemma key_unif fn q t : fpfun_ok fn -> fn <> FPdt -> fo q -> fo t -> unifiable q t -> Forall2 ucompat (fp_key fn q) (fp_key fn t).
  Proof.
    intros O N A B C. destruct fn as [ps|seq|pp fr pr|]; cbn [fp_key fpfun_ok] in *; [apply pos_unif; auto| | |tauto].
    - destruct O as [ps ->]. rewrite !flex_key_ok by apply flex_len. apply pos_unif; auto.
    - destruct O as [G1 G2]. rewrite !fpfp_cases by auto. constructor; auto. destruct C as [sg [tau E]]. unfold ucompat.
      destruct q as [x|f a], t as [y|g b]; auto; [destruct (pp g); auto 8|destruct (pp f); auto 8|]. cbn [app] in E. injection E as -> _. auto.
  Qed.
  Lemma key_match fn q t : fpfun_ok fn -> fn <> FPdt -> fo q -> fo t -> instance q t -> Forall2 mcompat (fp_key fn q) (fp_key fn t).
  Proof.
    intros O N A B C. destruct fn as [ps|seq|pp fr pr|]; cbn [fp_key fpfun_ok] in *; [apply pos_match; auto| | |tauto].
    - destruct O as [ps ->]. rewrite !flex_key_ok by apply flex_len. apply pos_match; auto.
    - destruct O as [G1 G2]. rewrite !fpfp_cases by auto. constructor; auto. destruct C as [sg E]. unfold mcompat.
      destruct q as [x|f a], t as [y|g b]; auto; [destruct (pp g); auto 8|discriminate|]. cbn [app] in E. injection E as -> _. auto.
  Qed.
  Lemma fcodes_fl t : fcodes t = fl [t].
  Proof. unfold fl. cbn [flat_map]. rewrite app_nil_r. auto. Qed.
  Lemma key_prefix fn t u e : fpfun_ok fn -> fo t -> fo u -> fp_key fn u = fp_key fn t ++ e -> e = [].
  Proof.
    intros O A B E. assert (L : fn <> FPdt -> length (fp_key fn u) = length (fp_key fn t) -> e = []).
    { intros _ L. rewrite E, app_length in L. destruct e; auto. cbn [length] in L. lia. }
    destruct fn as [ps|seq|pp fr pr|]; cbn [fp_key fpfun_ok] in *.
    - apply L; [discriminate|]. rewrite !map_length. auto.
    - apply L; [discriminate|]. destruct O as [ps ->]. rewrite !flex_key_ok by apply flex_len. rewrite !map_length. auto.
    - apply L; [discriminate|]. destruct t, u; auto.
    - rewrite !fcodes_fl in E. pose proof (skip_key_ok sigarity (S (length (fl [t]))) [t] e (Nat.lt_succ_diag_r _) ltac:(auto)) as H1.
      pose proof (skip_key_ok sigarity (S (length (fl [u]))) [u] [] (Nat.lt_succ_diag_r _) ltac:(auto)) as H2. rewrite app_nil_r, E in H2. cbn [length] in *. congruence.
  Qed.

  (** ** The index represents the set of entries *)
  Definition rep (fn : fpfun) (x : fptree) (s : entry -> Prop) : Prop :=
    fwf x /\ (forall key, plwf (pl_at x key)) /\ (forall key t, In t (map fst (pl_at x key)) -> fo t /\ fp_key fn t = key) /\ forall t e, s (t, e) <-> plin (pl_at x (fp_key fn t)) t e.
  Lemma pl_insert_keys t o p u : In u (map fst (pl_insert t o p)) -> u = t \/ In u (map fst p).
  Proof. unfold pl_insert. destruct (pl_get t p); [destruct (existsb (occ_eqb o) l); auto|]; apply pl_set_keys. Qed.
  Lemma pl_delete_keys t sel p u : In u (map fst (pl_delete t sel p)) -> In u (map fst p).
  Proof.
    unfold pl_delete. destruct (pl_get t p) eqn:G; auto. destruct (filter (fun o => negb (sel o)) l) as [|o0 os']; [apply pl_del_keys|]. intros I. apply pl_set_keys in I. destruct I as [->|I]; auto.
    apply pl_get_in in G. apply (in_map fst _ _ G).
  Qed.
  Lemma key_eqb_eq a b : key_eqb a b = true <-> a = b.
  Proof. unfold key_eqb. destruct (list_eq_dec Z.eq_dec a b); split; congruence. Qed.
  Lemma rep_change fn x s t (g : payload -> payload) x' (s' : entry -> Prop) :
    rep fn x s -> fo t -> fwf x' -> (forall key, pl_at x' key = if key_eqb key (fp_key fn t) then g (pl_at x (fp_key fn t)) else pl_at x key) ->
    (forall p, plwf p -> plwf (g p)) -> (forall p u, In u (map fst (g p)) -> u = t \/ In u (map fst p)) ->
    (forall p u e, plwf p -> u <> t -> plin (g p) u e <-> plin p u e) -> (forall u e, u <> t -> s' (u, e) <-> s (u, e)) ->
    (forall e, s' (t, e) <-> plin (g (pl_at x (fp_key fn t))) t e) -> rep fn x' s'.
  Proof.
    intros [W [PW [PK PS]]] F W' E G1 G2 G3 S1 S2. split; auto. split; [|split].
    - intros key. rewrite E. destruct (key_eqb key (fp_key fn t)); auto.
    - intros key u. rewrite E. destruct (key_eqb key (fp_key fn t)) eqn:Q; [|apply PK]. apply key_eqb_eq in Q. subst key. intros I. apply G2 in I. destruct I as [->|I]; auto.
    - intros u e. rewrite E. destruct (term_eqb u t) eqn:Q.
      + apply term_eqb_eq in Q. subst u. rewrite key_eqb_refl. apply S2.
      + assert (N : u <> t) by (intros ->; rewrite term_eqb_refl in Q; discriminate). rewrite S1 by auto. destruct (key_eqb (fp_key fn u) (fp_key fn t)) eqn:Q2; auto. apply key_eqb_eq in Q2. rewrite G3 by auto. rewrite PS, Q2. tauto.
  Qed.
  Lemma rep_delete fn x s t sel : fpfun_ok fn -> rep fn x s -> fo t -> rep fn (index_delete fn t sel x) (fun e => s e /\ ~ (fst e = t /\ sel (snd e) = true)).
  Proof.
    intros O R F. pose proof R as [W [PW [PK PS]]]. unfold index_delete. destruct (fp_find (fp_key fn t) x) as [nd|] eqn:Ef.
    - destruct (fp_modify_ok (pl_delete t sel) (fp_key fn t) x W ltac:(congruence)) as [Wm Hm].
      assert (Rm : rep fn (fp_modify (fp_key fn t) (pl_delete t sel) x) (fun e => s e /\ ~ (fst e = t /\ sel (snd e) = true))).
      { eapply (rep_change fn x s t (pl_delete t sel)); eauto.
        - intros p H. apply pl_delete_ok. auto.
        - intros p u I. right. eapply pl_delete_keys; eauto.
        - intros p u e H N. destruct (pl_delete_ok t sel p H) as [_ ->]. tauto.
        - intros u e N. cbn [fst snd]. tauto.
        - intros e. cbn [fst snd]. destruct (pl_delete_ok t sel _ (PW (fp_key fn t))) as [_ ->]. rewrite PS. tauto. }
      destruct (pl_delete t sel (pl_of nd)) as [|y ys] eqn:Ed; auto. destruct Rm as [W1 [PW1 [PK1 PS1]]].
      assert (E0 : pl_at (fp_modify (fp_key fn t) (pl_delete t sel) x) (fp_key fn t) = []) by (rewrite Hm, key_eqb_refl; unfold pl_at; rewrite Ef; auto).
      assert (Eq : forall key u, In u (map fst (pl_at (fp_modify (fp_key fn t) (pl_delete t sel) x) key)) -> key = fp_key fn t -> False) by (intros key u I ->; rewrite E0 in I; destruct I).
      assert (Ne : forall key, (forall u, In u (map fst (pl_at (fp_modify (fp_key fn t) (pl_delete t sel) x) key)) -> False) -> pl_at (fp_modify (fp_key fn t) (pl_delete t sel) x) key = []).
      { intros key H. destruct (pl_at _ key) as [|[u os] p]; auto. elim (H u). left. auto. }
      destruct (fp_delete_ok (fp_key fn t) (fp_modify (fp_key fn t) (pl_delete t sel) x) Wm) as [Wd [Hd _]].
      + intros pre suf Es. apply Ne. intros u I. destruct (PK1 _ _ I) as [Fu Ku]. assert (suf = []) by (apply (key_prefix fn u t); auto; congruence). subst suf. rewrite app_nil_r in Es. apply (Eq _ _ I). auto.
      + intros ext. apply Ne. intros u I. destruct (PK1 _ _ I) as [Fu Ku]. assert (ext = []) by (apply (key_prefix fn t u); auto). subst ext. rewrite app_nil_r in I. apply (Eq _ _ I). auto.
      + split; auto. split; [intros; rewrite Hd; auto|]. split; [intros key u; rewrite Hd; auto|]. intros u e. rewrite Hd. auto.
    - split; auto. split; auto. split; auto. intros u e. cbn [fst snd]. rewrite PS. split; [tauto|]. intros H. split; auto. intros [-> _]. unfold pl_at in H. rewrite Ef in H. destruct H as [os [[] _]].
  Qed.
  Lemma rep_ext fn x s s' : rep fn x s -> (forall e, s e <-> s' e) -> rep fn x s'.
  Proof. intros [A [B [C D]]] H. split; auto. split; auto. split; auto. intros t e. rewrite <- H. auto. Qed.
  Lemma rep_step fn x s o : fpfun_ok fn -> rep fn x s -> fo (iop_term o) -> rep fn (index_step fn x o) (spec_step s o).
  Proof.
    intros O R F. destruct o as [t e|t e|t c]; cbn [index_step spec_step iop_term] in *.
    - pose proof R as [W [PW [PK PS]]]. destruct (fp_insert_ok (pl_insert t e) (fp_key fn t) x W) as [Wi Hi]. eapply (rep_change fn x s t (pl_insert t e)); eauto.
      + intros p H. apply pl_insert_ok. auto.
      + intros p u. apply pl_insert_keys.
      + intros p u e' H N. destruct (pl_insert_ok t e p H) as [_ ->]. tauto.
      + intros u e' N. split; [intros [[= -> ->]|?]; tauto|auto].
      + intros e'. destruct (pl_insert_ok t e _ (PW (fp_key fn t))) as [_ ->]. rewrite PS. split; [intros [[= ->]|?]; auto|intros [[_ ->]|?]; auto].
    - eapply rep_ext; [apply rep_delete; eauto|]. intros [u e']. cbn [fst snd]. rewrite occ_eqb_eq. split; intros [A B]; split; auto; intros H; apply B; [injection H as -> ->; auto|destruct H as [-> ->]; auto].
    - eapply rep_ext; [apply rep_delete; eauto|]. intros [u e']. cbn [fst snd]. rewrite Nat.eqb_eq. split; intros [A B]; split; auto; intros [H1 H2]; apply B; split; congruence.
  Qed.
  Lemma rep_empty fn : rep fn fp_empty (fun _ => False).
  Proof.
    split; [apply fwf_empty|]. split; [intros; rewrite pl_at_empty; constructor|]. split; [intros key t; rewrite pl_at_empty; intros []|]. intros t e. rewrite pl_at_empty. split; [intros []|intros [os [[] _]]].
  Qed.
  Lemma rep_run fn : fpfun_ok fn -> forall ops x s, rep fn x s -> Forall (fun o => fo (iop_term o)) ops -> rep fn (fold_left (index_step fn) ops x) (fold_left spec_step ops s).
  Proof. intros O. induction ops as [|o ops IH]; intros x s R F; auto. inversion F; subst. cbn [fold_left]. apply IH; auto. apply rep_step; auto. Qed.

  Lemma found_spec fn x s ps e : rep fn x s -> (forall p, In p ps -> found x p) -> answers ps e -> s e.
  Proof.
    intros [W [PW [PK PS]]] H [p [os [I1 [I2 I3]]]]. destruct (H p I1) as [key [_ E]]. destruct e as [t e]. cbn [fst snd] in *. apply PS. subst p. destruct (PK key t (in_map fst _ _ I2)) as [_ <-]. exists os. auto.
  Qed.
  Lemma spec_found fn x s e : rep fn x s -> s e -> fo (fst e) /\ exists n os, fp_find (fp_key fn (fst e)) x = Some n /\ In (fst e, os) (pl_of n) /\ In (snd e) os.
  Proof.
    intros [W [PW [PK PS]]] H. destruct e as [t e]. apply PS in H. cbn [fst snd]. destruct H as [os [I1 I2]]. split; [apply (PK _ t (in_map fst _ _ I1))|]. unfold pl_at in I1. destruct (fp_find (fp_key fn t) x) as [n|]; [|destruct I1]. eauto.
  Qed.
  Lemma index_unif_ok fn x s q : fpfun_ok fn -> rep fn x s -> fo q -> exists ps, index_unifiable ispred sigarity fn x q = Some ps /\ (forall e, answers ps e -> s e) /\ (forall e, s e -> unifiable q (fst e) -> answers ps e).
  Proof.
    intros O R F. pose proof R as [W _]. assert (D : fn = FPdt \/ fn <> FPdt) by (destruct fn; auto; right; discriminate). destruct D as [->|N].
    - cbn [index_unifiable]. rewrite fcodes_fl. assert (Fq : Forall fo [q]) by auto. destruct (dt_unif ispred sigarity (S (length (fl [q]))) (fl [q]) x) as [ps|] eqn:E; [|elim (dt_unif_total ispred sigarity (S (length (fl [q]))) [q] x); auto].
      exists ps. split; auto. split; intros e H.
      + eapply found_spec; eauto. intros p. eapply dt_unif_sound; eauto.
      + intros U. destruct (spec_found _ _ _ _ R H) as [Fe [n [os [E1 [I1 I2]]]]]. exists (pl_of n), os. split; auto. cbn [fp_key] in E1. rewrite fcodes_fl in E1.
        eapply (dt_unif_complete ispred sigarity _ [q] [fst e]); eauto.
    - assert (Ei : index_unifiable ispred sigarity fn x q = Some (find_unif ispred (fp_key fn q) x)) by (destruct fn; auto; tauto). exists (find_unif ispred (fp_key fn q) x). split; auto. split; intros e H.
      + eapply found_spec; eauto. intros p. apply find_unif_sound; auto.
      + intros U. destruct (spec_found _ _ _ _ R H) as [Fe [n [os [E1 [I1 I2]]]]]. exists (pl_of n), os. split; auto. eapply find_unif_complete; eauto; [apply key_unif; auto|apply key_codes; auto].
  Qed.
  Lemma index_match_ok fn x s q : fpfun_ok fn -> rep fn x s -> fo q -> (forall e, answers (index_matchable ispred sigarity fn x q) e -> s e) /\ (forall e, s e -> instance q (fst e) -> answers (index_matchable ispred sigarity fn x q) e).
  Proof.
    intros O R F. pose proof R as [W _]. assert (D : fn = FPdt \/ fn <> FPdt) by (destruct fn; auto; right; discriminate). destruct D as [->|N].
    - cbn [index_matchable]. rewrite fcodes_fl. assert (Fq : Forall fo [q]) by auto. split; intros e H.
      + eapply found_spec; eauto. intros p. eapply dt_match_sound; eauto.
      + intros U. destruct (spec_found _ _ _ _ R H) as [Fe [n [os [E1 [I1 I2]]]]]. exists (pl_of n), os. split; auto. cbn [fp_key] in E1. rewrite fcodes_fl in E1.
        eapply (dt_match_complete ispred sigarity _ [q] [fst e]); eauto.
    - assert (Ei : index_matchable ispred sigarity fn x q = find_matchable ispred (fp_key fn q) x) by (destruct fn; auto; tauto). rewrite Ei. split; intros e H.
      + eapply found_spec; eauto. intros p. apply find_match_sound; auto.
      + intros U. destruct (spec_found _ _ _ _ R H) as [Fe [n [os [E1 [I1 I2]]]]]. exists (pl_of n), os. split; auto. eapply find_match_complete; eauto; [apply key_match; auto|apply key_codes; auto].
  Qed.

  (** ** FPfp: the representatives *)
  Lemma fpfp_run_ok pp : forall ts st, Forall fo ts -> (fst st = 0 \/ good_code (fst st)) -> (snd st = 0 \/ good_code (snd st)) ->
    exists fr pr, good_code fr /\ good_code pr /\ (fst st <> 0 -> fr = fst st) /\ (snd st <> 0 -> pr = snd st) /\ fst (fpfp_run pp st ts) = map (fpfp_key pp fr pr) ts.
  Proof.
    induction ts as [|t ts IH]; intros [a b] F Ha Hb; cbn [fst snd] in *.
    - assert (G1 : good_code 1) by (split; [lia|discriminate]). destruct Ha as [->|Ha], Hb as [->|Hb]; [exists 1, 1|exists 1, b|exists a, 1|exists a, b]; cbn [fpfp_run fst map]; intuition.
    - inversion F as [|? ? F1 F2]; subst. cbn [fpfp_run]. unfold fpfp_call. destruct t as [x|f l].
      + change (0 <? sample (Var x) []) with false. cbv iota. destruct (IH (a, b) F2 Ha Hb) as [fr [pr [G1 [G2 [Q1 [Q2 E]]]]]]. destruct (fpfp_run pp (a, b) ts) as [ks st2]. cbn [fst snd] in *. exists fr, pr. cbn [map fpfp_key]. rewrite E. intuition.
      + apply fo_fun in F1. assert (Gf : good_code (Z.of_nat f)) by (split; [lia|tauto]). cbn [sample fst snd]. destruct (Z.ltb_spec 0 (Z.of_nat f)) as [Pf|]; [|lia]. destruct (pp f) eqn:Ep.
        * set (p := if b =? 0 then Z.of_nat f else b). assert (Gp : good_code p) by (unfold p; destruct (Z.eqb_spec b 0); [auto|destruct Hb; [tauto|auto]]).
          destruct (IH (a, p) F2 Ha (or_intror Gp)) as [fr [pr [G1 [G2 [Q1 [Q2 E]]]]]]. destruct (fpfp_run pp (a, p) ts) as [ks st2]. cbn [fst snd] in *. exists fr, pr. cbn [map fpfp_key]. rewrite E, Ep.
          destruct (Z.ltb_spec 0 (Z.of_nat f)); [|lia]. assert (p <> 0) by (destruct Gp; lia). rewrite (Q2 H0). repeat split; auto; try apply G1; try apply Gp. intros Nb. unfold p. destruct (Z.eqb_spec b 0); [tauto|auto].
        * set (p := if a =? 0 then Z.of_nat f else a). assert (Gp : good_code p) by (unfold p; destruct (Z.eqb_spec a 0); [auto|destruct Ha; [tauto|auto]]).
          destruct (IH (p, b) F2 (or_intror Gp) Hb) as [fr [pr [G1 [G2 [Q1 [Q2 E]]]]]]. destruct (fpfp_run pp (p, b) ts) as [ks st2]. cbn [fst snd] in *. exists fr, pr. cbn [map fpfp_key]. rewrite E, Ep.
          destruct (Z.ltb_spec 0 (Z.of_nat f)); [|lia]. assert (p <> 0) by (destruct Gp; lia). rewrite (Q1 H0). repeat split; auto; try apply G2; try apply Gp. intros Nb. unfold p. destruct (Z.eqb_spec a 0); [tauto|auto].
  Qed.
End Keys.
