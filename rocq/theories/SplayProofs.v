(** * Proofs about splay trees. *)
From Verif Require Import Splay.
From Coq Require Import ZifyBool.

Section P.
  Context {K V : Type} (kcmp : K -> K -> comparison) (dom : K -> Prop).
  Notation tree := (tree K V).
  Notation entry := (K * V)%type.

  Fixpoint inord (t : tree) : list entry := match t with Leaf => [] | Node l k v r => inord l ++ (k, v) :: inord r end.
  Fixpoint flatL (L : list (tree * K * V)) : list entry := match L with [] => [] | (l, k, v) :: L' => flatL L' ++ inord l ++ [(k, v)] end.
  Fixpoint flatR (R : list (K * V * tree)) : list entry := match R with [] => [] | (k, v, r) :: R' => (k, v) :: inord r ++ flatR R' end.

  Lemma asml_inord L : forall t, inord (asml K V L t) = flatL L ++ inord t.
  Proof. induction L as [|[[l k] v] L IH]; intros t; simpl; auto. rewrite IH. simpl. rewrite <- !app_assoc. auto. Qed.
  Lemma asmr_inord R : forall t, inord (asmr K V R t) = inord t ++ flatR R.
  Proof. induction R as [|[[k v] r] R IH]; intros t; simpl; [rewrite app_nil_r; auto|]. rewrite IH. simpl. rewrite <- !app_assoc. auto. Qed.
  Lemma assemble_inord L R l k v r : inord (assemble K V L R l k v r) = flatL L ++ inord (Node l k v r) ++ flatR R.
  Proof. unfold assemble. simpl. rewrite asml_inord, asmr_inord, <- !app_assoc. auto. Qed.

  Lemma sloop_inord key : forall n t L R, tsize K V t <= n -> t <> Leaf -> inord (sloop K V kcmp key t L R) = flatL L ++ inord t ++ flatR R.
  Proof.
    induction n as [|n IH]; intros t L R HS N; destruct t as [|l k v r]; try congruence; [simpl in HS; lia|].
    simpl in HS. cbn [sloop]. destruct (kcmp key k).
    - apply assemble_inord.
    - destruct l as [|ll kl vl lr]; [apply assemble_inord|]. simpl in HS.
      destruct (kcmp key kl).
      1,3: rewrite IH; [simpl; rewrite <- ?app_assoc; simpl; rewrite <- ?app_assoc; auto | simpl; lia | discriminate].
      destruct ll as [|lll kll vll llr]; [rewrite assemble_inord; simpl; rewrite <- ?app_assoc; simpl; rewrite <- ?app_assoc; auto|].
      rewrite IH; [simpl; rewrite <- ?app_assoc; simpl; rewrite <- ?app_assoc; simpl; rewrite <- ?app_assoc; auto | simpl in *; lia | discriminate].
    - destruct r as [|rl kr vr rr]; [apply assemble_inord|]. simpl in HS.
      destruct (kcmp key kr).
      1,2: rewrite IH; [simpl; rewrite <- ?app_assoc; simpl; rewrite <- ?app_assoc; auto | simpl; lia | discriminate].
      destruct rr as [|rrl krr vrr rrr]; [rewrite assemble_inord; simpl; rewrite <- ?app_assoc; simpl; rewrite <- ?app_assoc; auto|].
      rewrite IH; [simpl; rewrite <- ?app_assoc; simpl; rewrite <- ?app_assoc; simpl; rewrite <- ?app_assoc; auto | simpl in *; lia | discriminate].
  Qed.

  Lemma splay_inord t key : inord (splay K V kcmp t key) = inord t.
  Proof.
    destruct t as [|l k v r]; [auto|]. unfold splay. rewrite sloop_inord with (n := tsize K V (Node l k v r)); [|auto|discriminate].
    simpl flatL. simpl flatR. rewrite app_nil_r. auto.
  Qed.

  Hypothesis KO : key_order K kcmp dom.

  Definition lt (a b : entry) := kcmp (fst a) (fst b) = Lt.
  Fixpoint sorted (l : list entry) : Prop := match l with [] => True | a :: l' => (forall b, In b l' -> lt a b) /\ sorted l' end.

  Lemma sorted_app A B : sorted (A ++ B) <-> sorted A /\ sorted B /\ forall a b, In a A -> In b B -> lt a b.
  Proof.
    induction A as [|a A IH]; simpl.
    - split; [intros H; repeat split; auto; intros ? ? []|tauto].
    - rewrite IH. split.
      + intros [H [SA [SB X]]]. repeat split; auto.
        * intros b Hb. apply H. apply in_or_app; auto.
        * intros x b [<-|Hx] Hb; auto. apply H. apply in_or_app; auto.
      + intros [[H SA] [SB X]]. repeat split; auto. intros b Hb. apply in_app_or in Hb. destruct Hb; auto.
  Qed.

  Definition domain (l : list entry) := forall e, In e l -> dom (fst e).
  (** the invariant of a search tree *)
  Definition bst (t : tree) := sorted (inord t) /\ domain (inord t).

  Definition below key (l : list entry) := forall e, In e l -> kcmp key (fst e) = Gt.
  Definition above key (l : list entry) := forall e, In e l -> kcmp key (fst e) = Lt.

  Lemma below_app key A B : below key (A ++ B) <-> below key A /\ below key B.
  Proof. unfold below. split; [intros H; split; intros e He; apply H; apply in_or_app; auto|intros [H1 H2] e He; apply in_app_or in He; destruct He; auto]. Qed.
  Lemma above_app key A B : above key (A ++ B) <-> above key A /\ above key B.
  Proof. unfold above. split; [intros H; split; intros e He; apply H; apply in_or_app; auto|intros [H1 H2] e He; apply in_app_or in He; destruct He; auto]. Qed.
  Lemma below_cons key a B : below key (a :: B) <-> kcmp key (fst a) = Gt /\ below key B.
  Proof. unfold below. simpl. split; [intros H; split; auto|intros [H1 H2] e [<-|He]; auto]. Qed.
  Lemma above_cons key a B : above key (a :: B) <-> kcmp key (fst a) = Lt /\ above key B.
  Proof. unfold above. simpl. split; [intros H; split; auto|intros [H1 H2] e [<-|He]; auto]. Qed.
  Lemma domain_app A B : domain (A ++ B) <-> domain A /\ domain B.
  Proof. unfold domain. split; [intros H; split; intros e He; apply H; apply in_or_app; auto|intros [H1 H2] e He; apply in_app_or in He; destruct He; auto]. Qed.
  Lemma domain_cons a B : domain (a :: B) <-> dom (fst a) /\ domain B.
  Proof. unfold domain. simpl. split; [intros H; split; auto|intros [H1 H2] e [<-|He]; auto]. Qed.
  Lemma below_nil key : below key []. Proof. intros e []. Qed.
  Lemma above_nil key : above key []. Proof. intros e []. Qed.

  Lemma anti a b : dom a -> dom b -> kcmp a b = CompOpp (kcmp b a). Proof. apply KO. Qed.
  Lemma flip_lt a b : dom a -> dom b -> kcmp a b = Lt -> kcmp b a = Gt.
  Proof. intros Ha Hb H. rewrite (anti b a), H; auto. Qed.
  Lemma flip_gt a b : dom a -> dom b -> kcmp a b = Gt -> kcmp b a = Lt.
  Proof. intros Ha Hb H. rewrite (anti b a), H; auto. Qed.

  Lemma left_below key k A : dom key -> dom k -> domain A -> (forall a, In a A -> kcmp (fst a) k = Lt) -> kcmp key k <> Lt -> below key A.
  Proof.
    intros Dk D DA H N e He. specialize (H e He). assert (De := DA e He). destruct (kcmp key k) eqn:E; [|congruence|].
    - apply (ko_eq _ _ _ KO) in E; auto. subst. apply flip_lt; auto.
    - apply flip_lt; auto. apply (ko_trans _ _ _ KO) with k; auto. apply flip_gt; auto.
  Qed.
  Lemma right_above key k A : dom key -> dom k -> domain A -> (forall a, In a A -> kcmp k (fst a) = Lt) -> kcmp key k <> Gt -> above key A.
  Proof.
    intros Dk D DA H N e He. specialize (H e He). assert (De := DA e He). destruct (kcmp key k) eqn:E; [| |congruence].
    - apply (ko_eq _ _ _ KO) in E; auto. subst. auto.
    - apply (ko_trans _ _ _ KO) with k; auto.
  Qed.

  Lemma bst_node l k v r : bst (Node l k v r) <->
    bst l /\ bst r /\ dom k /\ (forall a, In a (inord l) -> kcmp (fst a) k = Lt) /\ (forall a, In a (inord r) -> kcmp k (fst a) = Lt).
  Proof.
    unfold bst. simpl. rewrite sorted_app, domain_app, domain_cons. simpl. split.
    - intros [[S1 [[S2 S3] X]] [D1 [D2 D3]]]. repeat split; auto. intros a Ha. exact (X a (k, v) Ha (or_introl eq_refl)).
    - intros [[S1 D1] [[S2 D2] [Dk [X Y]]]]. repeat split; auto.
      intros a b Ha [<-|Hb]; [apply X; auto|]. unfold lt. apply (ko_trans _ _ _ KO) with k; auto.
  Qed.

  Lemma sloop_split key : dom key -> forall n t L R, tsize K V t <= n -> t <> Leaf -> bst t -> below key (flatL L) -> above key (flatR R) ->
    exists l k v r, sloop K V kcmp key t L R = Node l k v r /\ below key (inord l) /\ above key (inord r).
  Proof.
    intros Dk. induction n as [|n IH]; intros t L R HS N HB HL HR; destruct t as [|l k v r]; try congruence; [simpl in HS; lia|].
    simpl in HS. apply bst_node in HB. destruct HB as [Bl [Br [Dn [Xl Xr]]]].
    assert (ASM : forall a k0 v0 b, below key (inord a) -> above key (inord b) ->
       exists l0 k1 v1 r0, assemble K V L R a k0 v0 b = Node l0 k1 v1 r0 /\ below key (inord l0) /\ above key (inord r0)).
    { intros a k0 v0 b Ha Hb. unfold assemble. repeat eexists; rewrite ?asml_inord, ?asmr_inord; [apply below_app|apply above_app]; auto. }
    cbn [sloop]. destruct (kcmp key k) eqn:E.
    - apply ASM; [eapply left_below; eauto; [apply Bl|congruence] | eapply right_above; eauto; [apply Br|congruence]].
    - assert (Ar : above key ((k, v) :: inord r)).
      { apply above_cons. split; auto. eapply right_above; eauto; [apply Br|congruence]. }
      destruct l as [|ll kl vl lr].
      { apply ASM; [apply below_nil|]. apply above_cons in Ar. tauto. }
      pose proof (proj1 (bst_node _ _ _ _) Bl) as [Bll [Blr [Dl [Xll Xlr]]]]. simpl in HS.
      assert (GO : exists l0 k0 v0 r0, sloop K V kcmp key (Node ll kl vl lr) L ((k, v, r) :: R) = Node l0 k0 v0 r0 /\ below key (inord l0) /\ above key (inord r0)).
      { apply IH; auto; [simpl; lia|discriminate|]. change (above key (((k, v) :: inord r) ++ flatR R)). apply above_app. auto. }
      destruct (kcmp key kl) eqn:E2; auto.
      assert (Alr : above key ((kl, vl) :: inord lr ++ (k, v) :: inord r)).
      { apply above_cons. split; auto. apply above_app. split; auto. eapply right_above; [auto|exact Dl|apply Blr|auto|congruence]. }
      destruct ll as [|lll kll vll llr].
      { apply ASM; [apply below_nil|]. apply above_cons in Alr. tauto. }
      apply IH; auto; [simpl in *; lia|discriminate|].
      change (above key (((kl, vl) :: inord lr ++ (k, v) :: inord r) ++ flatR R)). apply above_app. auto.
    - assert (Al : below key (inord l ++ [(k, v)])).
      { apply below_app. split; [eapply left_below; eauto; [apply Bl|congruence]|]. apply below_cons. split; auto. apply below_nil. }
      destruct r as [|rl kr vr rr].
      { apply ASM; [|apply above_nil]. apply below_app in Al. tauto. }
      pose proof (proj1 (bst_node _ _ _ _) Br) as [Brl [Brr [Dr [Xrl Xrr]]]]. simpl in HS.
      assert (GO : exists l0 k0 v0 r0, sloop K V kcmp key (Node rl kr vr rr) ((l, k, v) :: L) R = Node l0 k0 v0 r0 /\ below key (inord l0) /\ above key (inord r0)).
      { apply IH; auto; [simpl; lia|discriminate|]. simpl. apply below_app. auto. }
      destruct (kcmp key kr) eqn:E2; auto.
      assert (Arl : below key (inord (Node l k v rl) ++ [(kr, vr)])).
      { simpl. rewrite <- app_assoc. apply below_app in Al. destruct Al as [Al1 Al2]. apply below_cons in Al2. destruct Al2 as [Al2 _].
        apply below_app. split; auto. simpl. apply below_cons. split; auto. apply below_app. split.
        - eapply left_below; [auto|exact Dr|apply Brl|auto|congruence].
        - apply below_cons. split; auto. apply below_nil. }
      destruct rr as [|rrl krr vrr rrr].
      { apply ASM; [|apply above_nil]. apply below_app in Arl. tauto. }
      apply IH; auto; [simpl in *; lia|discriminate|]. simpl flatL. apply below_app. split; auto.
  Qed.

  Lemma splay_split t key : dom key -> bst t -> t <> Leaf ->
    exists l k v r, splay K V kcmp t key = Node l k v r /\ bst (Node l k v r) /\ inord (Node l k v r) = inord t /\
      below key (inord l) /\ above key (inord r).
  Proof.
    intros Dk HB N. destruct (sloop_split key Dk (tsize K V t) t [] []) as [l [k [v [r [E [A B]]]]]]; auto using below_nil, above_nil.
    exists l, k, v, r. fold (splay K V kcmp t key) in E. pose proof (splay_inord t key) as I. rewrite E in I.
    split; auto. split; [unfold bst; rewrite I; exact HB|]. auto.
  Qed.

  (** abstraction to a finite map *)
  Fixpoint assoc (l : list entry) (x : K) : option entry :=
    match l with [] => None | e :: l' => match kcmp x (fst e) with Eq => Some e | _ => assoc l' x end end.
  Lemma assoc_app A B x : assoc (A ++ B) x = match assoc A x with Some e => Some e | None => assoc B x end.
  Proof. induction A as [|a A IH]; simpl; auto. destruct (kcmp x (fst a)); auto. Qed.
  Lemma assoc_below x A : below x A -> assoc A x = None.
  Proof. induction A as [|a A IH]; simpl; auto. intros H. apply below_cons in H. destruct H as [-> H]. auto. Qed.
  Lemma assoc_above x A : above x A -> assoc A x = None.
  Proof. induction A as [|a A IH]; simpl; auto. intros H. apply above_cons in H. destruct H as [-> H]. auto. Qed.

  Lemma assoc_in A x e : domain A -> dom x -> assoc A x = Some e -> In e A /\ fst e = x.
  Proof.
    induction A as [|a A IH]; simpl; [discriminate|]. intros D Dx H. apply domain_cons in D. destruct D as [Da D].
    destruct (kcmp x (fst a)) eqn:E.
    - injection H as ->. split; auto. symmetry. apply (ko_eq _ _ _ KO); auto.
    - destruct (IH D Dx H). auto.
    - destruct (IH D Dx H). auto.
  Qed.
  Lemma in_assoc A e : sorted A -> domain A -> In e A -> assoc A (fst e) = Some e.
  Proof.
    induction A as [|a A IH]; simpl; [tauto|]. intros [H S] D He. apply domain_cons in D. destruct D as [Da D]. destruct He as [->|He].
    - rewrite (proj2 (ko_eq _ _ _ KO (fst e) (fst e) Da Da) eq_refl). auto.
    - pose proof (H e He) as HL. assert (De := D e He). rewrite (flip_lt _ _ Da De HL). auto.
  Qed.

  Definition absm (t : tree) (m : fmap K V) := forall x, dom x -> assoc (inord t) x = m x.

  Definition rel (t : tree) (m : fmap K V) := bst t /\ absm t m.

  Lemma assoc_split l k v r x : assoc (inord (Node l k v r)) x =
    match assoc (inord l) x with Some e => Some e | None => match kcmp x k with Eq => Some (k, v) | _ => assoc (inord r) x end end.
  Proof. simpl. rewrite assoc_app. auto. Qed.

  Lemma at_key l k v r key : below key (inord l) -> above key (inord r) ->
    assoc (inord (Node l k v r)) key = match kcmp key k with Eq => Some (k, v) | _ => None end.
  Proof. intros A B. rewrite assoc_split, assoc_below, assoc_above by auto. destruct (kcmp key k); auto. Qed.

  Lemma below_bst l k v r key val : dom key -> bst (Node l k v r) -> below key (inord l) -> above key (inord r) ->
    kcmp key k = Lt -> bst (Node l key val (Node Leaf k v r)).
  Proof.
    intros Dk HB A B E. apply bst_node in HB. destruct HB as [Bl [Br [Dn [Xl Xr]]]]. apply bst_node.
    split; auto. split.
    - apply bst_node. split; [split; simpl; auto; intros e []|]. split; auto. split; auto. split; auto. intros a [].
    - split; auto. split.
      + intros a Ha. apply flip_gt; auto. apply Bl; auto.
      + intros a [<-|Ha]; auto.
  Qed.
  Lemma above_bst l k v r key val : dom key -> bst (Node l k v r) -> below key (inord l) -> above key (inord r) ->
    kcmp key k = Gt -> bst (Node (Node l k v Leaf) key val r).
  Proof.
    intros Dk HB A B E. apply bst_node in HB. destruct HB as [Bl [Br [Dn [Xl Xr]]]]. apply bst_node.
    split.
    - apply bst_node. split; auto. split; [split; simpl; auto; intros e []|]. split; auto. split; auto. intros a [].
    - split; auto. split; auto. split.
      + intros a Ha. simpl in Ha. apply in_app_or in Ha. destruct Ha as [Ha|[<-|[]]]; apply flip_gt; auto. apply Bl; auto.
      + intros a Ha. apply B; auto.
  Qed.

  Lemma assoc_eq l k v x y : dom x -> dom y -> kcmp x y = Eq -> assoc (inord (Node l k v Leaf)) x = assoc (inord (Node l k v Leaf)) y.
  Proof. intros Dx Dy E. apply (ko_eq _ _ _ KO) in E; auto. subst; auto. Qed.

  Lemma insert_rel t m key val : dom key -> rel t m ->
    let (o, t') := insert K V kcmp t key val in
    o = m key /\ rel t' (match m key with None => fadd K V kcmp m key val | Some _ => m end).
  Proof.
    intros Dk [HB HA]. unfold insert. destruct t as [|l0 k0 v0 r0].
    - split; [rewrite <- (HA key Dk); auto|]. rewrite <- (HA key Dk). simpl. split.
      + apply bst_node. split; [exact HB|]. split; [exact HB|]. split; auto. split; intros a [].
      + intros x Dx. simpl. unfold fadd. rewrite <- (HA x Dx). auto.
    - destruct (splay_split (Node l0 k0 v0 r0) key Dk HB) as [l [k [v [r [E [HB' [HI [A B]]]]]]]]; [discriminate|].
      rewrite E. pose proof (HA key Dk) as HK. rewrite <- HI, at_key in HK by auto.
      destruct (kcmp key k) eqn:Ek; rewrite <- HK.
      + split; auto. split; auto. intros x Dx. rewrite HI. auto.
      + split; auto. split; [eapply below_bst; eauto|]. intros x Dx. unfold fadd. rewrite <- (HA x Dx), <- HI.
        rewrite !assoc_split. simpl.
        destruct (kcmp x key) eqn:Ex; auto.
        apply (ko_eq _ _ _ KO) in Ex; auto. subst x. rewrite assoc_below by auto. auto.
      + split; auto. split; [eapply above_bst; eauto|]. intros x Dx. unfold fadd. rewrite <- (HA x Dx), <- HI.
        rewrite !assoc_split. simpl.
        destruct (kcmp x key) eqn:Ex.
        * apply (ko_eq _ _ _ KO) in Ex; auto. subst x. rewrite assoc_below by auto. rewrite Ek. auto.
        * destruct (assoc (inord l) x); auto. destruct (kcmp x k); auto.
        * destruct (assoc (inord l) x); auto. destruct (kcmp x k); auto.
  Qed.

  Lemma find_rel t m key : dom key -> rel t m -> let (o, t') := find K V kcmp t key in o = m key /\ rel t' m.
  Proof.
    intros Dk [HB HA]. unfold find. destruct t as [|l0 k0 v0 r0].
    - split; [rewrite <- (HA key Dk); auto|split; auto].
    - destruct (splay_split (Node l0 k0 v0 r0) key Dk HB) as [l [k [v [r [E [HB' [HI [A B]]]]]]]]; [discriminate|].
      rewrite E. pose proof (HA key Dk) as HK. rewrite <- HI, at_key in HK by auto. rewrite <- HK.
      assert (Dn : dom k) by (apply bst_node in HB'; tauto).
      split; [rewrite (anti k key) by auto; destruct (kcmp key k); auto|].
      split; auto. intros x Dx. rewrite HI. auto.
  Qed.

  Lemma extract_rel t m key : dom key -> rel t m -> let (o, t') := extract K V kcmp t key in o = m key /\ rel t' (fdel K V kcmp m key).
  Proof.
    intros Dk [HB HA]. unfold extract. destruct t as [|l0 k0 v0 r0].
    - split; [rewrite <- (HA key Dk); auto|split; auto]. intros x Dx. unfold fdel. rewrite <- (HA x Dx). simpl. destruct (kcmp x key); auto.
    - destruct (splay_split (Node l0 k0 v0 r0) key Dk HB) as [l [k [v [r [E [HB' [HI [A B]]]]]]]]; [discriminate|].
      rewrite E. pose proof (HA key Dk) as HK. rewrite <- HI, at_key in HK by auto.
      destruct (kcmp key k) eqn:Ek.
      + rewrite <- HK. split; auto. pose proof HB' as HB2. apply bst_node in HB'. destruct HB' as [Bl [Br [Dn [Xl Xr]]]].
        apply (ko_eq _ _ _ KO) in Ek; auto. subst k.
        assert (MIX : forall t', bst t' -> inord t' = inord l ++ inord r -> rel t' (fdel K V kcmp m key)).
        { intros t' Bt It. split; auto. intros x Dx. unfold fdel. rewrite <- (HA x Dx), <- HI, It, assoc_app, assoc_split.
          destruct (kcmp x key) eqn:Ex; auto. apply (ko_eq _ _ _ KO) in Ex; auto. subst x.
          rewrite assoc_below, assoc_above by auto. auto. }
        destruct l as [|l1 k1 v1 r1].
        * apply MIX; auto.
        * destruct (splay_split (Node l1 k1 v1 r1) key Dk Bl) as [l2 [k2 [v2 [r2 [E2 [HB3 [HI3 [A3 B3]]]]]]]]; [discriminate|].
          rewrite E2.
          assert (r2 = Leaf).
          { destruct r2 as [|ra ka va rb]; auto. exfalso.
            assert (In (ka, va) (inord (Node l1 k1 v1 r1))).
            { rewrite <- HI3. simpl. apply in_or_app. right. right. apply in_or_app. right. left. auto. }
            specialize (A (ka, va) H). specialize (B3 (ka, va)). simpl in *. rewrite B3 in A; [discriminate|]. apply in_or_app. right. left. auto. }
          subst r2. apply MIX.
          -- apply bst_node in HB3. destruct HB3 as [Bl2 [_ [D2 [X2 _]]]]. apply bst_node. split; auto. split; auto. split; auto. split; auto.
             intros a Ha. apply (ko_trans _ _ _ KO) with key; auto; [apply Br; auto|].
             apply flip_gt; auto. apply (A (k2, v2)). rewrite <- HI3. simpl. apply in_or_app. right. left. auto.
          -- rewrite <- HI3. simpl. rewrite <- app_assoc. auto.
      + rewrite <- HK. split; auto. split; auto. intros x Dx. rewrite HI, (HA x Dx). unfold fdel. destruct (kcmp x key) eqn:Ex; auto.
        apply (ko_eq _ _ _ KO) in Ex; auto. subst x. auto.
      + rewrite <- HK. split; auto. split; auto. intros x Dx. rewrite HI, (HA x Dx). unfold fdel. destruct (kcmp x key) eqn:Ex; auto.
        apply (ko_eq _ _ _ KO) in Ex; auto. subst x. auto.
  Qed.

  Lemma leaf_rel : rel Leaf (fempty K V).
  Proof. split; [split; simpl; auto; intros e []|]. intros x Dx. auto. Qed.

  Lemma step_rel t m o : dom (okey K V o) -> rel t m ->
    fst (tree_step K V kcmp t o) = fst (spec_step K V kcmp m o) /\ rel (snd (tree_step K V kcmp t o)) (snd (spec_step K V kcmp m o)).
  Proof.
    intros Dk HR. destruct o as [k v|k|k|k]; simpl in *.
    - pose proof (insert_rel t m k v Dk HR) as H. unfold store. destruct (insert K V kcmp t k v) as [o t']. destruct H as [-> H].
      destruct (m k); auto.
    - pose proof (find_rel t m k Dk HR) as H. destruct (find K V kcmp t k) as [o t']. destruct H as [-> H]. auto.
    - pose proof (extract_rel t m k Dk HR) as H. destruct (extract K V kcmp t k) as [o t']. destruct H as [-> H]. auto.
    - pose proof (extract_rel t m k Dk HR) as H. unfold delete. destruct (extract K V kcmp t k) as [o t']. destruct H as [-> H].
      unfold isSome. destruct (m k); auto.
  Qed.

  Lemma run_rel os : forall t m, (forall o, In o os -> dom (okey K V o)) -> rel t m ->
    fst (run K V (tree_step K V kcmp) t os) = fst (run K V (spec_step K V kcmp) m os) /\
    rel (snd (run K V (tree_step K V kcmp) t os)) (snd (run K V (spec_step K V kcmp) m os)).
  Proof.
    induction os as [|o os IH]; intros t m D HR; simpl; auto.
    destruct (step_rel t m o (D o (or_introl eq_refl)) HR) as [E1 R1].
    destruct (tree_step K V kcmp t o) as [x t1], (spec_step K V kcmp m o) as [y m1]. simpl in *. subst y.
    destruct (IH t1 m1 (fun o' Ho => D o' (or_intror Ho)) R1) as [E2 R2].
    destruct (run K V (tree_step K V kcmp) t1 os) as [xs t2], (run K V (spec_step K V kcmp) m1 os) as [ys m2]. simpl in *. subst. auto.
  Qed.

  Lemma find_binary_spec t key : dom key -> bst t -> find_binary K V kcmp t key = assoc (inord t) key.
  Proof.
    intros Dk. induction t as [|l IHl k v r IHr]; intros HB; auto. rewrite assoc_split. cbn [find_binary].
    apply bst_node in HB. destruct HB as [Bl [Br [Dn [Xl Xr]]]].
    destruct (kcmp key k) eqn:E.
    - rewrite (assoc_below key (inord l)); auto. eapply left_below; eauto; [apply Bl|congruence].
    - rewrite IHl by auto. destruct (assoc (inord l) key); auto. symmetry. apply assoc_above. eapply right_above; eauto; [apply Br|congruence].
    - rewrite IHr by auto. rewrite (assoc_below key (inord l)); auto. eapply left_below; eauto; [apply Bl|congruence].
  Qed.

  (** traversal *)
  Fixpoint stkord (st : list tree) : list entry :=
    match st with [] => [] | Leaf :: st' => stkord st' | Node l k v r :: st' => (k, v) :: inord r ++ stkord st' end.
  Definition noleaf (st : list tree) := forall t, In t st -> t <> Leaf.
  Lemma push_left_spec t : forall st, noleaf st -> stkord (push_left K V t st) = inord t ++ stkord st /\ noleaf (push_left K V t st).
  Proof.
    induction t as [|l IHl k v r IHr]; intros st N; simpl; auto.
    destruct (IHl (Node l k v r :: st)) as [E N'].
    { intros t [<-|Ht]; [discriminate|auto]. }
    rewrite E. simpl. rewrite <- app_assoc. auto.
  Qed.
  Lemma trav_all_spec : forall n st, noleaf st -> length (stkord st) < n -> trav_all K V n st = Some (stkord st).
  Proof.
    induction n as [|n IH]; intros st N H; [lia|]. destruct st as [|[|l k v r] st]; auto.
    - exfalso. apply (N Leaf (or_introl eq_refl)). auto.
    - cbn [trav_all trav_next]. simpl in H. destruct (push_left_spec r st) as [E N']; [intros t Ht; apply N; right; auto|].
      rewrite IH; auto; [simpl; rewrite E; auto|]. rewrite E. lia.
  Qed.
  Lemma inord_length t : length (inord t) = tsize K V t.
  Proof. induction t; simpl; auto. rewrite app_length. simpl. lia. Qed.

  (** pre-order walks visit every entry once *)
  Fixpoint preord (t : tree) : list entry := match t with Leaf => [] | Node l k v r => (k, v) :: preord r ++ preord l end.
  Lemma walk_spec : forall n st, length st + 3 * list_sum (map (tsize K V) st) < n -> walk K V n st = Some (flat_map preord st).
  Proof.
    induction n as [|n IH]; intros st H; [lia|]. destruct st as [|[|l k v r] st]; auto.
    - simpl in *. apply IH. lia.
    - cbn [walk]. rewrite IH; [simpl; rewrite <- app_assoc; auto|]. simpl in *. lia.
  Qed.
  Lemma preord_in t e : In e (preord t) <-> In e (inord t).
  Proof.
    induction t as [|l IHl k v r IHr]; simpl; [tauto|]. rewrite in_app_iff, in_app_iff, IHl, IHr. simpl. tauto.
  Qed.
  Lemma preord_length t : length (preord t) = tsize K V t.
  Proof. induction t; simpl; auto. rewrite app_length. lia. Qed.

  Lemma store_list_rel es : forall t m, domain es -> rel t m ->
    rel (store_list K V kcmp t es) (fold_left (fun m e => match m (fst e) with None => fadd K V kcmp m (fst e) (snd e) | Some _ => m end) es m).
  Proof.
    induction es as [|[k v] es IH]; intros t m D HR; simpl; auto. apply domain_cons in D. destruct D as [Dk D].
    apply IH; auto. pose proof (insert_rel t m k v Dk HR) as H. unfold store. simpl.
    destruct (insert K V kcmp t k v) as [o t']. destruct H as [-> H]. auto.
  Qed.

  Lemma max_node_spec t : t <> Leaf -> exists e A, max_node K V t = Some e /\ inord t = A ++ [e].
  Proof.
    induction t as [|l IHl k v r IHr]; [congruence|]. intros _. cbn [max_node]. destruct r as [|rl kr vr rr].
    - exists (k, v), (inord l). auto.
    - destruct IHr as [e [A [E1 E2]]]; [discriminate|]. exists e, (inord l ++ (k, v) :: A). rewrite E1. split; auto.
      cbn [inord]. cbn [inord] in E2. rewrite E2, <- app_assoc. auto.
  Qed.

  Definition at_least limit (e : entry) : bool := match kcmp (fst e) limit with Lt => false | _ => true end.
  Lemma filter_all_false (P : entry -> bool) l : (forall e, In e l -> P e = false) -> filter P l = [].
  Proof. induction l as [|a l IH]; simpl; auto. intros H. rewrite H by auto. apply IH. auto. Qed.
  Lemma filter_all_true (P : entry -> bool) l : (forall e, In e l -> P e = true) -> filter P l = l.
  Proof. induction l as [|a l IH]; simpl; auto. intros H. rewrite H by auto. f_equal. apply IH. auto. Qed.
  Lemma limited_spec limit t : dom limit -> bst t -> forall st, noleaf st ->
    stkord (limited_init K V kcmp t limit st) = filter (at_least limit) (inord t) ++ stkord st /\ noleaf (limited_init K V kcmp t limit st).
  Proof.
    intros Dl. induction t as [|l IHl k v r IHr]; intros HB st N; simpl; auto.
    apply bst_node in HB. destruct HB as [Bl [Br [Dn [Xl Xr]]]]. rewrite filter_app. simpl.
    destruct (kcmp k limit) eqn:E.
    - apply (ko_eq _ _ _ KO) in E; auto. subst limit. rewrite (filter_all_false _ (inord l)).
      2:{ intros e He. unfold at_least. rewrite Xl; auto. }
      unfold at_least at 1. simpl. rewrite (proj2 (ko_eq _ _ _ KO k k Dn Dn) eq_refl). rewrite filter_all_true.
      2:{ intros e He. unfold at_least. rewrite (flip_lt k (fst e)); auto. apply Br; auto. }
      split; auto. intros t [<-|Ht]; [discriminate|auto].
    - destruct (IHr Br st N) as [E1 N1]. rewrite E1. rewrite (filter_all_false _ (inord l)).
      2:{ intros e He. unfold at_least. rewrite (ko_trans _ _ _ KO (fst e) k limit); auto. apply Bl; auto. }
      unfold at_least at 2. simpl. rewrite E. auto.
    - destruct (IHl Bl (Node l k v r :: st)) as [E1 N1]; [intros t [<-|Ht]; [discriminate|auto]|].
      rewrite E1. simpl. unfold at_least at 3. simpl. rewrite E. rewrite (filter_all_true _ (inord r)).
      2:{ intros e He. unfold at_least. assert (De : dom (fst e)) by (apply Br; auto). rewrite (flip_lt limit (fst e)); auto.
          apply (ko_trans _ _ _ KO) with k; auto. apply flip_gt; auto. }
      rewrite <- app_assoc. auto.
  Qed.
End P.
