(** * Proofs about perfect discrimination trees: the tree invariant under insertion and deletion. *)
From Coq Require Import Permutation.
From Verif Require Import Terms Unify UnifyProofs MatchProofs PDTree.

Lemma key_eqb_eq a b : key_eqb a b = true <-> a = b.
Proof. destruct a, b; simpl; rewrite ?Nat.eqb_eq; split; congruence. Qed.
Lemma key_eqb_refl a : key_eqb a a = true.
Proof. apply key_eqb_eq; auto. Qed.
Lemma key_eqb_neq a b : key_eqb a b = false <-> a <> b.
Proof. rewrite <- not_true_iff_false, key_eqb_eq. tauto. Qed.

(** ** the left-right traversal *)
Lemma lr_seq_flat : forall n stack, list_sum (map size stack) < n -> lr_seq n stack = Some (flat_map keys stack).
Proof.
  induction n as [|n IH]; intros stack H; [lia|]. destruct stack as [|[x|f a] r]; simpl; auto.
  - simpl in H. rewrite IH by lia. reflexivity.
  - change (list_sum (map size (Fun f a :: r))) with (size (Fun f a) + list_sum (map size r)) in H.
    rewrite size_fun_sum in H. rewrite IH.
    + simpl. rewrite flat_map_app. reflexivity.
    + rewrite map_app, list_sum_app. lia.
Qed.
Lemma lr_seq_keys t : lr_seq (S (size t)) [t] = Some (keys t).
Proof. rewrite lr_seq_flat; simpl; [rewrite app_nil_r; auto|lia]. Qed.

Section Tree.
  Context {A : Type}.
  Variables (aterm : A -> term) (aclause : A -> nat) (adate : A -> Z) (rank : key -> Z).
  Notation node := (@node A).
  Notation get_size := (get_size aterm).
  Notation get_age := (get_age adate).
  Notation kids := (list (key * option node)).

  Section Ind.
    Variable P : node -> Prop.
    Definition kidP (ko : key * option node) : Prop := match snd ko with Some c => P c | None => True end.
    Hypothesis H : forall sz ag rc lf es ks, Forall kidP ks -> P (Node sz ag rc lf es ks).
    Fixpoint node_ind' (n : node) : P n :=
      match n with
      | Node sz ag rc lf es ks =>
          H sz ag rc lf es ks
            ((fix go (l : kids) : Forall kidP l :=
                match l with
                | [] => Forall_nil _
                | (k, o) :: r =>
                    @Forall_cons _ kidP (k, o) r (match o return kidP (k, o) with Some c => node_ind' c | None => I end) (go r)
                end) ks)
      end.
  End Ind.

  (** everything below a node, with the remaining path *)
  Fixpoint stored (n : node) : list (list key * A) :=
    match n with
    | Node _ _ _ _ es ks =>
        map (fun e => ([], e)) es ++
        (fix go (l : kids) : list (list key * A) :=
           match l with
           | [] => []
           | (k, Some c) :: r => map (fun pe => (k :: fst pe, snd pe)) (stored c) ++ go r
           | (_, None) :: r => go r
           end) ks
    end.
  Definition kid_stored (ko : key * option node) : list (list key * A) :=
    match snd ko with Some c => map (fun pe => (fst ko :: fst pe, snd pe)) (stored c) | None => [] end.
  Lemma stored_eq sz ag rc lf es ks : stored (Node sz ag rc lf es ks) = map (fun e => ([], e)) es ++ flat_map kid_stored ks.
  Proof. simpl. f_equal. induction ks as [|[k [c|]] r IH]; simpl; auto. rewrite IH. reflexivity. Qed.

  Definition weight_ok (sz : Z) (l : list (list key * A)) := (sz = -1 \/ forall pe, In pe l -> sz <= stdweight (aterm (snd pe)))%Z.
  Definition age_ok (ag : Z) (l : list (list key * A)) := (ag = -1 \/ forall pe, In pe l -> adate (snd pe) <= ag)%Z.

  Definition kid_ok (P : node -> Prop) (ko : key * option node) : Prop :=
    match snd ko with
    | Some c => P c /\ stored c <> [] /\ n_ref c = Z.of_nat (length (stored c))
    | None => False
    end.

  Fixpoint ninv (n : node) : Prop :=
    match n with
    | Node sz ag rc lf es ks =>
        NoDup (map fst ks) /\ (lf = true -> ks = []) /\ weight_ok sz (stored n) /\ age_ok ag (stored n) /\
        (fix go (l : kids) : Prop := match l with [] => True | ko :: r => match ko with
            | (_, Some c) => (ninv c /\ stored c <> [] /\ n_ref c = Z.of_nat (length (stored c)))
            | (_, None) => False end /\ go r end) ks
    end.
  Lemma ninv_eq sz ag rc lf es ks : ninv (Node sz ag rc lf es ks) <->
    NoDup (map fst ks) /\ (lf = true -> ks = []) /\ weight_ok sz (stored (Node sz ag rc lf es ks)) /\
    age_ok ag (stored (Node sz ag rc lf es ks)) /\ Forall (kid_ok ninv) ks.
  Proof.
    cbn [ninv].
    assert (E : (fix go (l : kids) : Prop := match l with [] => True | ko :: r => match ko with
            | (_, Some c) => (ninv c /\ stored c <> [] /\ n_ref c = Z.of_nat (length (stored c)))
            | (_, None) => False end /\ go r end) ks <-> Forall (kid_ok ninv) ks).
    { clear. induction ks as [|[k [c|]] r IH].
      - split; auto.
      - rewrite IH. split; [intros [B C]; constructor; auto|intros B; inversion B; subst; auto].
      - split; [intros [[] _]|intros B; inversion B as [|? ? B1 B2]; subst; destruct B1]. }
    rewrite E. reflexivity.
  Qed.

  (** ** alternatives *)
  Lemma kfind_perm k : forall (l : kids), NoDup (map fst l) ->
    match kfind k l with
    | Some c => Permutation l ((k, Some c) :: kdel k l)
    | None => Permutation l (kdel k l) \/ Permutation l ((k, None) :: kdel k l)
    end.
  Proof.
    assert (N : forall l : kids, ~ In k (map fst l) -> kdel k l = l).
    { induction l as [|[k' o] r IH]; simpl; auto. intros H. destruct (key_eqb k k') eqn:E.
      - apply key_eqb_eq in E. subst. tauto.
      - simpl. rewrite IH; tauto. }
    induction l as [|[k' o] r IH]; simpl; intros D; auto. inversion D; subst.
    destruct (key_eqb k k') eqn:E; simpl.
    - apply key_eqb_eq in E. subst. rewrite N; auto. destruct o; auto.
    - specialize (IH H2). destruct (kfind k r) as [c|].
      + rewrite IH at 1. apply perm_swap.
      + destruct IH as [IH|IH]; [left|right]; rewrite IH at 1; auto. apply perm_swap.
  Qed.
  Lemma kfind_in k (l : kids) c : kfind k l = Some c -> In (k, Some c) l.
  Proof.
    induction l as [|[k' o] r IH]; simpl; [discriminate|]. destruct (key_eqb k k') eqn:E; auto.
    apply key_eqb_eq in E. subst. intros ->. auto.
  Qed.
  Lemma kfind_nodup k (l : kids) c : NoDup (map fst l) -> In (k, Some c) l -> kfind k l = Some c.
  Proof.
    induction l as [|[k' o] r IH]; simpl; [tauto|]. intros D [H|H]; inversion D; subst.
    - inversion H; subst. rewrite key_eqb_refl. auto.
    - destruct (key_eqb k k') eqn:E; auto. apply key_eqb_eq in E. subst. exfalso. apply H2.
      change k' with (fst (k', Some c)). apply in_map. auto.
  Qed.
  Lemma kdel_in k (l : kids) ko : In ko (kdel k l) -> In ko l /\ fst ko <> k.
  Proof. unfold kdel. rewrite filter_In. intros [H E]. split; auto. intros E2. rewrite E2, key_eqb_refl in E. discriminate. Qed.
  Lemma kdel_nodup k : forall (l : kids), NoDup (map fst l) -> NoDup (map fst (kdel k l)).
  Proof.
    induction l as [|[k' o] r IH]; simpl; intros D; auto. inversion D; subst.
    destruct (key_eqb k k'); simpl; auto. constructor; auto. intros H. apply H1.
    apply in_map_iff in H. destruct H as [ko [E H]]. apply kdel_in in H. apply in_map_iff. exists ko. tauto.
  Qed.
  Lemma kdel_notin k (l : kids) : ~ In k (map fst (kdel k l)).
  Proof. rewrite in_map_iff. intros [ko [E H]]. apply kdel_in in H. tauto. Qed.
  Lemma kset_perm k v : forall (l : kids), NoDup (map fst l) -> Permutation (kset rank k v l) ((k, v) :: kdel k l).
  Proof.
    assert (N : forall l : kids, existsb (fun p => key_eqb k (fst p)) l = false -> kdel k l = l).
    { induction l as [|[k' o] r IH]; simpl; auto. intros H. apply orb_false_iff in H. destruct H as [H1 H2]. rewrite H1. simpl.
      rewrite IH; auto. }
    assert (N2 : forall l : kids, ~ In k (map fst l) -> existsb (fun p => key_eqb k (fst p)) l = false).
    { induction l as [|[k' o] r IH]; simpl; auto. intros H. rewrite IH; [|tauto]. rewrite orb_false_r.
      apply key_eqb_neq. intros ->. tauto. }
    induction l as [|[k' o] r IH]; simpl; intros D; auto. inversion D; subst.
    destruct (key_eqb k k') eqn:E; simpl.
    - apply key_eqb_eq in E. subst. rewrite N; auto.
    - destruct ((rank k <? rank k')%Z && negb (existsb (fun p => key_eqb k (fst p)) r)) eqn:F.
      + apply andb_true_iff in F. destruct F as [_ F]. apply negb_true_iff in F. rewrite N; auto.
      + rewrite IH; auto. apply perm_swap.
  Qed.
  Lemma kset_nodup k v (l : kids) : NoDup (map fst l) -> NoDup (map fst (kset rank k v l)).
  Proof.
    intros D. apply (Permutation_NoDup (l := map fst ((k, v) :: kdel k l))).
    - apply Permutation_map. symmetry. apply kset_perm; auto.
    - simpl. constructor; [apply kdel_notin|apply kdel_nodup; auto].
  Qed.
  Lemma kdel_Forall k (P : key * option node -> Prop) (l : kids) : Forall P l -> Forall P (kdel k l).
  Proof. rewrite !Forall_forall. intros H ko Hi. apply H. eapply proj1, kdel_in. exact Hi. Qed.
  Lemma kset_Forall k v (P : key * option node -> Prop) (l : kids) : NoDup (map fst l) ->
    Forall P l -> P (k, v) -> Forall P (kset rank k v l).
  Proof.
    intros D H1 H2. rewrite Forall_forall. intros ko Hi. apply (Permutation_in _ (kset_perm k v l D)) in Hi.
    destruct Hi as [<-|Hi]; auto. apply kdel_in in Hi. rewrite Forall_forall in H1. apply H1. apply Hi.
  Qed.
  Lemma kset_flat k v (l : kids) : NoDup (map fst l) ->
    Permutation (flat_map kid_stored (kset rank k v l)) (kid_stored (k, v) ++ flat_map kid_stored (kdel k l)).
  Proof. intros D. rewrite (Permutation_flat_map _ (kset_perm k v l D)). simpl. auto. Qed.
  Lemma kfind_flat k (l : kids) : NoDup (map fst l) ->
    Permutation (flat_map kid_stored l)
      (match kfind k l with Some c => kid_stored (k, Some c) | None => [] end ++ flat_map kid_stored (kdel k l)).
  Proof.
    intros D. pose proof (kfind_perm k l D) as P. destruct (kfind k l) as [c|].
    - rewrite (Permutation_flat_map _ P) at 1. simpl. auto.
    - destruct P as [P|P]; rewrite (Permutation_flat_map _ P) at 1; simpl; auto.
  Qed.

  Lemma weight_perm sz l l' : (forall pe, In pe l' -> In pe l) -> weight_ok sz l -> weight_ok sz l'.
  Proof. intros H [E|B]; [left; auto|right]. intros pe Hi. apply B. auto. Qed.
  Lemma age_perm sz l l' : (forall pe, In pe l' -> In pe l) -> age_ok sz l -> age_ok sz l'.
  Proof. intros H [E|B]; [left; auto|right]. intros pe Hi. apply B. auto. Qed.

  Lemma stdweight_pos t : (1 <= stdweight t)%Z.
  Proof.
    induction t as [x|f a IH] using term_ind'; [simpl; lia|].
    change (stdweight (Fun f a)) with (2 + fold_right (fun b n => stdweight b + n) 0 a)%Z.
    assert (0 <= fold_right (fun b n => stdweight b + n) 0 a)%Z; [|lia].
    induction IH; simpl; lia.
  Qed.

  (** ** cached constraints bound what is below *)
  Lemma ents_size_le : forall es acc e, In e es \/ (acc <= stdweight (aterm e))%Z ->
    (fold_left (fun r e => Z.min r (stdweight (aterm e))) es acc <= stdweight (aterm e))%Z.
  Proof.
    induction es as [|x es IH]; simpl; intros acc e H.
    - destruct H; [tauto|auto].
    - apply IH. destruct H as [[H|H]|H]; auto; subst; right; lia.
  Qed.
  Lemma ents_age_ge : forall es acc e, In e es \/ (adate e <= acc)%Z ->
    (adate e <= fold_left (fun r e => Z.max r (adate e)) es acc)%Z.
  Proof.
    induction es as [|x es IH]; simpl; intros acc e H.
    - destruct H; [tauto|auto].
    - apply IH. destruct H as [[H|H]|H]; auto; subst; right; lia.
  Qed.

  Lemma get_size_ok : forall n, ninv n -> forall pe, In pe (stored n) -> (get_size n <= stdweight (aterm (snd pe)))%Z.
  Proof.
    induction n as [sz ag rc lf es ks IH] using node_ind'. intros I pe Hi. apply ninv_eq in I.
    destruct I as [D [L [W [_ K]]]]. cbn [PDTree.get_size]. destruct (Z.eqb_spec sz (-1)) as [->|Ne].
    2:{ destruct W as [W|W]; [tauto|]. apply W. auto. }
    rewrite stored_eq, in_app_iff, in_map_iff in Hi.
    destruct lf.
    - rewrite (L eq_refl) in Hi. simpl in Hi. destruct Hi as [[e [<- Hi]]|[]]. simpl. apply ents_size_le. auto.
    - clear L W D.
      assert (G : (exists e, pe = ([], e) /\ (ents_size aterm es <= stdweight (aterm e))%Z) \/ In pe (flat_map kid_stored ks)).
      { destruct Hi as [[e [<- Hi]]|Hi]; auto. left. exists e. split; auto. apply ents_size_le. auto. }
      clear Hi.
      assert (G2 : (ents_size aterm es <= stdweight (aterm (snd pe)))%Z \/ In pe (flat_map kid_stored ks)).
      { destruct G as [[e [-> G]]|G]; auto. }
      clear G. generalize dependent (ents_size aterm es).
      induction ks as [|[k [c|]] r IHr]; intros acc G.
      + simpl in G. tauto.
      + inversion IH; subst. inversion K; subst. simpl in H1. destruct H3 as [Ic _]. apply IHr; auto.
        simpl in G. rewrite in_app_iff in G. destruct G as [G|[G|G]]; auto.
        * left. lia.
        * left. unfold kid_stored in G. simpl in G. apply in_map_iff in G. destruct G as [qe [<- G]]. simpl.
          specialize (H1 Ic qe G). lia.
      + inversion K; subst. destruct H1.
  Qed.

  Lemma get_age_ok : forall n, ninv n -> forall pe, In pe (stored n) -> (adate (snd pe) <= get_age n)%Z.
  Proof.
    induction n as [sz ag rc lf es ks IH] using node_ind'. intros I pe Hi. apply ninv_eq in I.
    destruct I as [D [L [_ [W K]]]]. cbn [PDTree.get_age]. destruct (Z.eqb_spec ag (-1)) as [->|Ne].
    2:{ destruct W as [W|W]; [tauto|]. apply W. auto. }
    rewrite stored_eq, in_app_iff, in_map_iff in Hi.
    destruct lf.
    - rewrite (L eq_refl) in Hi. simpl in Hi. destruct Hi as [[e [<- Hi]]|[]]. simpl. apply ents_age_ge. auto.
    - clear L W D.
      assert (G2 : (adate (snd pe) <= ents_age adate es)%Z \/ In pe (flat_map kid_stored ks)).
      { destruct Hi as [[e [<- Hi]]|Hi]; auto. left. simpl. apply ents_age_ge. auto. }
      clear Hi. generalize dependent (ents_age adate es).
      induction ks as [|[k [c|]] r IHr]; intros acc G.
      + simpl in G. tauto.
      + inversion IH; subst. inversion K; subst. simpl in H1. destruct H3 as [Ic _]. apply IHr; auto.
        simpl in G. rewrite in_app_iff in G. destruct G as [G|[G|G]]; auto.
        * left. lia.
        * left. unfold kid_stored in G. simpl in G. apply in_map_iff in G. destruct G as [qe [<- G]]. simpl.
          specialize (H1 Ic qe G). lia.
      + inversion K; subst. destruct H1.
  Qed.

  (** ** recomputing cached constraints *)
  Lemma refresh_ok : forall n m, refresh aterm adate n m -> ninv n -> ninv m /\ stored m = stored n /\ n_ref m = n_ref n.
  Proof.
    induction n as [sz ag rc lf es ks IH] using node_ind'. intros [sz' ag' rc' lf' es' ks'] R I.
    assert (Gs := get_size_ok _ I). assert (Ga := get_age_ok _ I).
    apply ninv_eq in I. destruct I as [D [L [W [Ag K]]]].
    cbn [refresh] in R. destruct R as [-> [-> [-> [Rs [Ra R]]]]].
    assert (Q : map fst ks' = map fst ks /\ (ks = [] -> ks' = []) /\ Forall (kid_ok ninv) ks' /\ flat_map kid_stored ks' = flat_map kid_stored ks).
    { clear - IH R K. revert ks' R. induction ks as [|[k [c|]] r IHr]; intros [|[k' [c'|]] r'] R; simpl in R; try (exfalso; exact R).
      - split; [auto|]. split; [auto|]. split; [constructor|auto].
      - destruct R as [-> [R1 R2]]. inversion IH; subst. inversion K; subst. destruct H3 as [K1 [K2 K3]].
        destruct (H1 _ R1 K1) as [B1 [B2 B3]]. destruct (IHr H2 H4 r' R2) as [C1 [C2 [C3 C4]]]. split; [simpl; congruence|].
        split; [discriminate|]. split; [|simpl; unfold kid_stored at 1 3; simpl; congruence].
        constructor; auto. unfold kid_ok. simpl. rewrite B2, B3. auto.
      - inversion K; subst. destruct H1. }
    destruct Q as [Q1 [Q2 [Q3 Q4]]].
    assert (QS : stored (Node sz' ag' rc lf es ks') = stored (Node sz ag rc lf es ks)) by (rewrite !stored_eq; congruence).
    split; [|split; [exact QS|reflexivity]].
    apply ninv_eq. rewrite QS. split; [congruence|]. split; [auto|]. split; [|split; [|auto]].
    - destruct Rs as [->|[_ ->]]; [exact W|right; exact Gs].
    - destruct Ra as [->|[_ ->]]; [exact Ag|right; exact Ga].
  Qed.

  (** ** insertion *)
  Lemma ins_ok e w : w = stdweight (aterm e) -> forall p n, ninv n ->
    ninv (ins adate rank n p w e) /\ Permutation (stored (ins adate rank n p w e)) ((p, e) :: stored n) /\
    n_ref (ins adate rank n p w e) = (n_ref n + 1)%Z.
  Proof.
    intros Ew. induction p as [|k p IH]; intros n In0.
    - destruct n as [sz ag rc lf es ks]. apply ninv_eq in In0. destruct In0 as [D [L [W [Ag K]]]].
      cbn [ins bump]. split; [|split; [rewrite !stored_eq; simpl; auto|reflexivity]].
      apply ninv_eq. split; [auto|]. split; [auto|]. rewrite stored_eq in *. simpl. split; [|split; [|auto]].
      + destruct W as [->|W]; [left; pose proof (stdweight_pos (aterm e)); lia|right].
        intros pe [<-|Hi]; simpl; [lia|]. specialize (W pe Hi). lia.
      + destruct (Z.eqb_spec ag (-1)) as [->|Ne]; [left; auto|]. right. destruct Ag as [Ag|Ag]; [tauto|].
        intros pe [<-|Hi]; simpl; [lia|]. specialize (Ag pe Hi). lia.
    - assert (IA : ninv (@node_alloc A)).
      { apply ninv_eq. simpl. split; [constructor|]. split; [auto|]. split; [right; intros ? []|]. split; [right; intros ? []|]. constructor. }
      destruct n as [sz ag rc lf es ks]. apply ninv_eq in In0. destruct In0 as [D [L [W [Ag K]]]].
      (* the kid that is descended into *)
      set (c := match kfind k ks with Some c => c | None => node_alloc end).
      set (ks' := kset rank k (Some (ins adate rank c p w e)) ks).
      assert (Hc : ninv c /\ n_ref c = Z.of_nat (length (stored c))).
      { unfold c. destruct (kfind k ks) as [c0|] eqn:F; [|split; [auto|reflexivity]].
        apply kfind_in in F. rewrite Forall_forall in K. apply K in F. destruct F as [F1 [F2 F3]]. auto. }
      destruct (IH c (proj1 Hc)) as [I1 [I2 I3]].
      assert (PF : Permutation (flat_map kid_stored ks') ((k :: p, e) :: flat_map kid_stored ks)).
      { unfold ks'. rewrite kset_flat by auto. unfold kid_stored at 1. simpl. rewrite I2. simpl. constructor.
        rewrite (kfind_flat k ks D). unfold c. destruct (kfind k ks); simpl; auto. }
      assert (E : ins adate rank (Node sz ag rc lf es ks) (k :: p) w e =
                  Node (Z.min w sz) (if (ag =? -1)%Z then ag else Z.max (adate e) ag) (rc + 1)
                       (match kfind k ks with Some _ => lf | None => false end) es ks').
      { unfold ks', c. cbn [ins bump]. destruct (kfind k ks); auto. }
      rewrite E. clear E.
      assert (PS : forall a b r l, Permutation (stored (Node a b r l es ks')) ((k :: p, e) :: stored (Node sz ag rc lf es ks))).
      { intros. rewrite !stored_eq. rewrite PF. symmetry. apply Permutation_middle. }
      split; [|split; [apply PS|reflexivity]].
      apply ninv_eq. split; [apply kset_nodup; auto|]. split.
      { intros HL. destruct (kfind k ks) as [c0|] eqn:F; [|discriminate]. rewrite (L HL) in F. discriminate. }
      split; [|split].
      + destruct W as [->|W]; [left; pose proof (stdweight_pos (aterm e)); lia|right].
        intros pe Hi. apply (Permutation_in _ (PS _ _ _ _)) in Hi. destruct Hi as [<-|Hi]; simpl; [lia|]. specialize (W pe Hi). lia.
      + destruct (Z.eqb_spec ag (-1)) as [->|Ne]; [left; auto|]. right. destruct Ag as [Ag|Ag]; [tauto|].
        intros pe Hi. apply (Permutation_in _ (PS _ _ _ _)) in Hi. destruct Hi as [<-|Hi]; simpl; [lia|]. specialize (Ag pe Hi). lia.
      + apply kset_Forall; auto. split; [exact I1|]. split.
        * intros Z0. rewrite Z0 in I2. apply Permutation_nil in I2. discriminate.
        * rewrite I3, (proj2 Hc), (Permutation_length I2). simpl. lia.
  Qed.

  (** ** deletion *)
  Definition keeps (p : list key) (c : nat) (pe : list key * A) : bool :=
    negb ((if list_eq_dec (fun a b => match key_eqb a b as r return key_eqb a b = r -> {a = b} + {a <> b} with
                                      | true => fun H => left (proj1 (key_eqb_eq a b) H)
                                      | false => fun H => right (proj1 (key_eqb_neq a b) H) end eq_refl) (fst pe) p
           then true else false) && Nat.eqb (aclause (snd pe)) c).
  Lemma keeps_spec p c pe : keeps p c pe = false <-> fst pe = p /\ aclause (snd pe) = c.
  Proof.
    unfold keeps. rewrite negb_false_iff, andb_true_iff, Nat.eqb_eq. destruct (list_eq_dec _ (fst pe) p); split; intros [? ?]; split; auto; congruence.
  Qed.
  Lemma keeps_ne p c q e : q <> p -> keeps p c (q, e) = true.
  Proof. intros H. destruct (keeps p c (q, e)) eqn:E; auto. apply keeps_spec in E. simpl in E. tauto. Qed.
  Lemma keeps_cons k p c q e : keeps (k :: p) c (k :: q, e) = keeps p c (q, e).
  Proof.
    destruct (keeps p c (q, e)) eqn:E.
    - destruct (keeps (k :: p) c (k :: q, e)) eqn:F; auto. apply keeps_spec in F. simpl in F. destruct F as [F1 F2]. inversion F1; subst.
      assert (keeps p (aclause e) (p, e) = false) by (apply keeps_spec; auto). congruence.
    - apply keeps_spec in E. simpl in E. destruct E as [-> <-]. apply keeps_spec. auto.
  Qed.
  Lemma filter_keep_all {B} (f : B -> bool) l : (forall x, In x l -> f x = true) -> filter f l = l.
  Proof. induction l as [|x l IH]; simpl; intros H; auto. rewrite H by auto. rewrite IH; auto. Qed.
  Lemma filter_map_comm {B C} (f : C -> bool) (g : B -> C) l : filter f (map g l) = map g (filter (fun x => f (g x)) l).
  Proof. induction l as [|x l IH]; simpl; auto. destruct (f (g x)); simpl; rewrite IH; auto. Qed.
  Lemma Permutation_filter {B} (f : B -> bool) l l' : Permutation l l' -> Permutation (filter f l) (filter f l').
  Proof.
    induction 1; simpl; auto.
    - destruct (f x); auto.
    - destruct (f x), (f y); auto. apply perm_swap.
    - transitivity (filter f l'); auto.
  Qed.

  Lemma kid_stored_nonempty (ks : kids) : Forall (kid_ok ninv) ks -> flat_map kid_stored ks = [] -> ks = [].
  Proof.
    destruct ks as [|[k [c|]] r]; intros K E; auto.
    - inversion K; subst. destruct H1 as [_ [N _]]. simpl in E. apply app_eq_nil in E. destruct E as [E _].
      unfold kid_stored in E. simpl in E. apply map_eq_nil in E. tauto.
    - inversion K; subst. destruct H1.
  Qed.

  Lemma invalidate_ok w d n : ninv n -> ninv (invalidate w d n) /\ stored (invalidate w d n) = stored n /\ n_ref (invalidate w d n) = n_ref n.
  Proof.
    destruct n as [sz ag rc lf es ks]. intros I. cbn [invalidate]. split; [|split; [rewrite !stored_eq; auto|reflexivity]].
    apply ninv_eq in I. destruct I as [D [L [W [Ag K]]]]. apply ninv_eq. rewrite stored_eq in *.
    split; [auto|]. split; [auto|]. split; [|split; [|auto]].
    - destruct (w =? sz)%Z; [left; auto|auto].
    - destruct (ag =? d)%Z; [left; auto|auto].
  Qed.

  Lemma del_ok w c d : forall p n, ninv n -> (exists e, In (p, e) (stored n)) ->
    exists n' res, del aclause rank n p w c d = (n', Some res) /\ ninv n' /\
      Permutation (stored n') (filter (keeps p c) (stored n)) /\
      res = (Z.of_nat (length (stored n)) - Z.of_nat (length (stored n')))%Z /\ n_ref n' = n_ref n.
  Proof.
    induction p as [|k p IH]; intros n In0 [e He].
    - destruct n as [sz ag rc lf es ks]. cbn [del].
      set (es' := filter (fun e => negb (Nat.eqb (aclause e) c)) es).
      assert (F : filter (keeps [] c) (stored (Node sz ag rc lf es ks)) = stored (Node sz ag rc lf es' ks)).
      { rewrite !stored_eq, filter_app. f_equal.
        - rewrite filter_map_comm. unfold es'. f_equal.
        - apply filter_keep_all. intros [q x] Hx. apply keeps_ne. apply in_flat_map in Hx. destruct Hx as [[k' [m|]] [_ Hx]]; [|destruct Hx].
          unfold kid_stored in Hx. simpl in Hx. apply in_map_iff in Hx. destruct Hx as [? [Hx _]]. inversion Hx. discriminate. }
      assert (I' : ninv (Node sz ag rc lf es' ks)).
      { apply ninv_eq in In0. destruct In0 as [D [L [W [Ag K]]]]. apply ninv_eq. split; [auto|]. split; [auto|].
        rewrite <- F. split; [|split; [|auto]].
        - eapply weight_perm; [|exact W]. intros pe Hp. apply filter_In in Hp. apply Hp.
        - eapply age_perm; [|exact Ag]. intros pe Hp. apply filter_In in Hp. apply Hp. }
      destruct (invalidate_ok w d _ I') as [J1 [J2 J3]].
      eexists. eexists. split; [reflexivity|]. split; [exact J1|]. split; [rewrite J2, F; auto|]. split; [|exact J3].
      rewrite J2, !stored_eq, !app_length, !map_length. lia.
    - destruct n as [sz ag rc lf es ks].
      pose proof In0 as In1. apply ninv_eq in In1. destruct In1 as [D [L [W [Ag K]]]].
      rewrite stored_eq, in_app_iff in He. destruct He as [He|He].
      { apply in_map_iff in He. destruct He as [? [He _]]. discriminate. }
      apply in_flat_map in He. destruct He as [[k' [m|]] [Hm He]]; [|destruct He].
      unfold kid_stored in He. simpl in He. apply in_map_iff in He. destruct He as [[q x] [He Hq]]. simpl in He. inversion He; subst k' q x. clear He.
      pose proof (kfind_nodup k ks m D Hm) as Fk.
      assert (Km : kid_ok ninv (k, Some m)) by (rewrite Forall_forall in K; apply K; auto).
      destruct Km as [Im [Nm Rm]].
      destruct (IH m Im (ex_intro _ e Hq)) as [m' [res [E1 [E2 [E3 [E4 E5]]]]]].
      cbn [del]. rewrite Fk, E1. destruct m' as [sz1 ag1 rc1 lf1 es1 ks1]. simpl in E5.
      set (rc2 := (rc1 - res)%Z).
      assert (Erc : rc2 = Z.of_nat (length (stored (Node sz1 ag1 rc1 lf1 es1 ks1)))) by (unfold rc2; lia).
      set (new := Node sz1 ag1 rc2 (if (rc2 =? Z.of_nat (length es1))%Z then true else lf1) es1 ks1).
      assert (Sn : stored new = stored (Node sz1 ag1 rc1 lf1 es1 ks1)) by (unfold new; rewrite !stored_eq; auto).
      assert (Inew : ninv new).
      { pose proof E2 as I2. apply ninv_eq in I2. destruct I2 as [D1 [L1 [W1 [A1 K1]]]]. unfold new. apply ninv_eq.
        change (Node sz1 ag1 rc2 (if (rc2 =? Z.of_nat (length es1))%Z then true else lf1) es1 ks1) with new. rewrite Sn.
        split; [auto|]. split; [|auto].
        destruct (Z.eqb_spec rc2 (Z.of_nat (length es1))) as [Eq|_]; auto. intros _. apply kid_stored_nonempty; auto.
        rewrite Erc, stored_eq, app_length, map_length in Eq.
        destruct (flat_map kid_stored ks1); auto. simpl in Eq. lia. }
      set (ks' := if (rc2 =? 0)%Z then kdel k ks else kset rank k (Some new) ks).
      assert (PK : Permutation (flat_map kid_stored ks') (filter (keeps (k :: p) c) (flat_map kid_stored ks))).
      { rewrite (Permutation_filter (keeps (k :: p) c) _ _ (kfind_flat k ks D)). rewrite Fk, filter_app.
        assert (R1 : filter (keeps (k :: p) c) (flat_map kid_stored (kdel k ks)) = flat_map kid_stored (kdel k ks)).
        { apply filter_keep_all. intros [q x] Hx. apply keeps_ne. apply in_flat_map in Hx. destruct Hx as [[k' [m0|]] [H1 Hx]]; [|destruct Hx].
          unfold kid_stored in Hx. simpl in Hx. apply in_map_iff in Hx. destruct Hx as [? [Hx _]]. inversion Hx. subst.
          apply kdel_in in H1. simpl in H1. intros Z0. inversion Z0. tauto. }
        rewrite R1.
        assert (R2 : filter (keeps (k :: p) c) (kid_stored (k, Some m)) = map (fun pe => (k :: fst pe, snd pe)) (filter (keeps p c) (stored m))).
        { unfold kid_stored. simpl. rewrite filter_map_comm. f_equal. apply filter_ext. intros [q x]. simpl. apply keeps_cons. }
        rewrite R2, <- E3. unfold ks'. destruct (Z.eqb_spec rc2 0) as [Z0|Nz].
        - assert (stored (Node sz1 ag1 rc1 lf1 es1 ks1) = []) as ->; [|simpl; auto].
          destruct (stored (Node sz1 ag1 rc1 lf1 es1 ks1)); auto. simpl in Erc. lia.
        - rewrite kset_flat by auto. unfold kid_stored at 1. simpl snd. simpl fst. cbv iota. rewrite Sn. auto. }
      assert (PS : Permutation (stored (Node sz ag rc lf es ks')) (filter (keeps (k :: p) c) (stored (Node sz ag rc lf es ks)))).
      { rewrite !stored_eq, filter_app, PK. apply Permutation_app_tail.
        rewrite filter_keep_all; auto. intros [q x] Hx. apply in_map_iff in Hx. destruct Hx as [? [Hx _]]. inversion Hx. apply keeps_ne. discriminate. }
      assert (I' : ninv (Node sz ag rc lf es ks')).
      { apply ninv_eq. split; [|split; [|split; [|split]]].
        - unfold ks'. destruct (rc2 =? 0)%Z; [apply kdel_nodup|apply kset_nodup]; auto.
        - intros HL. rewrite (L HL) in Fk. discriminate.
        - eapply weight_perm; [|exact W]. intros pe Hp. apply (Permutation_in _ PS) in Hp. apply filter_In in Hp. apply Hp.
        - eapply age_perm; [|exact Ag]. intros pe Hp. apply (Permutation_in _ PS) in Hp. apply filter_In in Hp. apply Hp.
        - unfold ks'. destruct (Z.eqb_spec rc2 0) as [Z0|Nz]; [apply kdel_Forall; auto|]. apply kset_Forall; auto.
          split; [exact Inew|]. rewrite Sn. split.
          + intros Z0. rewrite Z0 in Erc. simpl in Erc. lia.
          + exact Erc. }
      destruct (invalidate_ok w d _ I') as [J1 [J2 J3]].
      eexists. exists res. split; [reflexivity|]. fold rc2. fold new. fold ks'.
      split; [exact J1|]. split; [rewrite J2; exact PS|]. split; [|rewrite J3; reflexivity].
      rewrite J2, !stored_eq, !app_length, !map_length.
      assert (LK : length (flat_map kid_stored ks) = length (stored m) + length (flat_map kid_stored (kdel k ks))).
      { rewrite (Permutation_length (kfind_flat k ks D)), Fk, app_length. unfold kid_stored at 1. simpl. rewrite map_length. reflexivity. }
      assert (LK' : length (flat_map kid_stored ks') = length (stored (Node sz1 ag1 rc1 lf1 es1 ks1)) + length (flat_map kid_stored (kdel k ks))).
      { unfold ks'. destruct (Z.eqb_spec rc2 0) as [Z0|Nz]; [lia|].
        rewrite (Permutation_length (kset_flat k (Some new) ks D)), app_length. unfold kid_stored at 1. simpl snd. simpl fst. cbv iota.
        rewrite map_length, Sn. reflexivity. }
      rewrite LK, LK'. lia.
  Qed.

  (** ** histories *)
  Lemma keys_inj S : forall t u, wf S t -> wf S u -> forall r q, keys t ++ r = keys u ++ q -> t = u /\ r = q.
  Proof.
    induction t as [x|f a IH] using term_ind'; intros [y|g b] Wt Wu r q E; simpl in E; try discriminate.
    - inversion E; auto.
    - inversion E as [[E1 E2]]. subst g. pose proof (wf_fun_length _ _ _ _ Wt Wu) as Len.
      apply wf_fun in Wt. apply wf_fun in Wu. destruct Wt as [Wt _], Wu as [Wu _].
      assert (a = b /\ r = q) as [-> ->]; [|auto]. clear E f.
      revert b Len Wu r q E2. induction IH as [|x l Hx _ IHl]; intros [|y m] Len Wu r q E2; simpl in *; try discriminate; auto.
      inversion Wt; subst. inversion Wu; subst. rewrite <- !app_assoc in E2. destruct (Hx y H1 H3 _ _ E2) as [-> E3].
      destruct (IHl H2 m ltac:(lia) H4 _ _ E3) as [-> ->]. auto.
  Qed.
  Lemma keys_inj1 S t u : wf S t -> wf S u -> keys t = keys u -> t = u.
  Proof. intros Wt Wu E. apply (keys_inj S t u Wt Wu [] []). rewrite E. reflexivity. Qed.

  Record tree_ok S (n : node) (L : list A) : Prop := {
    to_inv : ninv n;
    to_perm : Permutation (map snd (stored n)) L;
    to_path : forall pe, In pe (stored n) -> fst pe = keys (aterm (snd pe)) /\ wf S (aterm (snd pe)) }.

  Lemma history_ok S n L : history aterm aclause adate rank S n L -> tree_ok S n L.
  Proof.
    induction 1 as [|n L e H [I P Q] W D|n L t c d H [I P Q] [e [He Et]]|n L m H [I P Q] R].
    - constructor; simpl; [|auto|intros ? []].
      split; [constructor|]. split; [auto|]. split; [right; intros ? []|]. split; [right; intros ? []|exact Logic.I].
    - unfold pdt_insert. destruct (ins_ok e _ eq_refl (keys (aterm e)) n I) as [I1 [I2 I3]]. constructor; auto.
      + rewrite (Permutation_map snd I2). simpl. constructor. auto.
      + intros pe Hp. apply (Permutation_in _ I2) in Hp. destruct Hp as [<-|Hp]; auto.
    - assert (Ex : exists x, In (keys t, x) (stored n)).
      { apply (Permutation_in _ (Permutation_sym P)) in He. apply in_map_iff in He. destruct He as [[q x] [E Hx]]. simpl in E. subst x.
        destruct (Q _ Hx) as [E _]. simpl in E. subst q. rewrite Et in Hx. exists e. auto. }
      unfold pdt_delete. destruct (del_ok (stdweight t) c d (keys t) n I Ex) as [n' [res [E [I1 [I2 [I3 I4]]]]]]. rewrite E. simpl.
      assert (Wt : wf S t).
      { destruct Ex as [x Hx]. apply (Permutation_in _ (Permutation_sym P)) in He. apply in_map_iff in He. destruct He as [[q y] [E' Hy]].
        simpl in E'. subst y. destruct (Q _ Hy). simpl in *. rewrite <- Et. auto. }
      constructor; auto.
      + rewrite (Permutation_map snd I2). rewrite <- (Permutation_filter _ _ _ P).
        rewrite filter_map_comm. apply Permutation_map.
        assert (EQ : forall l, incl l (stored n) -> filter (keeps (keys t) c) l =
                     filter (fun x => negb (term_eqb (aterm (snd x)) t && Nat.eqb (aclause (snd x)) c)) l).
        { induction l as [|pe l IHl]; simpl; intros HI; auto.
          assert (HI' : incl l (stored n)) by (intros y Hy; apply HI; simpl; auto).
          assert (K : keeps (keys t) c pe = negb (term_eqb (aterm (snd pe)) t && Nat.eqb (aclause (snd pe)) c)).
          { destruct (Q pe) as [Q1 Q2]; [apply HI; simpl; auto|].
            destruct (keeps (keys t) c pe) eqn:Kp.
            - symmetry. apply negb_true_iff. apply not_true_iff_false. intros B. apply andb_true_iff in B. destruct B as [B1 B2].
              apply term_eqb_eq in B1. apply Nat.eqb_eq in B2.
              assert (keeps (keys t) c pe = false) by (apply keeps_spec; rewrite Q1, B1; auto). congruence.
            - apply keeps_spec in Kp. destruct Kp as [K1 K2]. symmetry. apply negb_false_iff. rewrite K2, Nat.eqb_refl, andb_true_r.
              apply term_eqb_eq. apply (keys_inj1 S); auto. congruence. }
          rewrite K, IHl; auto. }
        rewrite (EQ _ (incl_refl _)). auto.
      + intros pe Hp. apply (Permutation_in _ I2) in Hp. apply filter_In in Hp. apply Q. apply Hp.
    - destruct (refresh_ok n m R I) as [I1 [I2 I3]]. constructor; auto; rewrite I2; auto.
  Qed.
End Tree.
