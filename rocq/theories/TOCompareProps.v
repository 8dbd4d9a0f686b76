(** * Property C09: term comparison answers are mutually consistent, with and without the cache. *)
From Verif Require Import Terms KBO KBOProofs KBOOrder KBOProps LPO LPOProofs LPO4Proofs LPOProps Splay SplayProofs SplayProps TOCompare.

(** An ordering that is set up properly and whose state was left behind by earlier comparisons. *)
Definition to_valid (ar : sym -> nat) (ord : tordering) : Prop :=
  match ord with
  | TKBO6 o k => total_prec (prec o) /\ admissible o ar /\ kreach o ar k
  | TLPO4 fuel limit p => lpo_precedence p /\ limit + 1 < fuel
  | TEMPTY => True
  end.
(** the same ordering, possibly in another state *)
Definition to_same (a b : tordering) : Prop :=
  match a, b with
  | TKBO6 o _, TKBO6 o' _ => o = o'
  | TLPO4 _ l p, TLPO4 _ l' p' => l = l' /\ p = p'
  | TEMPTY, TEMPTY => True
  | _, _ => False
  end.

(** C09: every comparison gives an answer; the answer for swapped arguments is the inverse one; the yes/no question agrees with it;
    an ordering never answers equal for different terms and always for identical ones. *)
Theorem C09_answers_consistent :
  forall ar ord ord' s t, to_valid ar ord -> to_valid ar ord' -> to_same ord ord' -> arok ar s = true -> arok ar t = true ->
    exists c, to_compare ord s t = Some c /\ to_compare ord' t s = Some (cmp_inv c) /\
      (to_greater ord' s t = Some (match c with Greater => true | _ => false end)) /\
      (c = Equal -> s = t) /\ (s = t -> ord <> TEMPTY -> c = Equal).
Proof.
  intros ar ord ord' s t HV HV' HS Hs Ht. destruct ord as [o k|fuel limit p|], ord' as [o' k'|fuel' limit' p'|]; simpl in HS; try contradiction.
  - subst o'. destruct HV as [TP [AD KR]], HV' as [_ [_ KR']]. simpl.
    pose proof (C05_kbo_comparison_is_knuth_bendix o ar k s t TP AD KR Hs Ht) as H1.
    pose proof (C05_kbo_comparison_is_knuth_bendix o ar k' t s TP AD KR' Ht Hs) as H2.
    pose proof (C05_kbo_greater_decides o ar k' s t TP AD KR' Hs Ht) as H3.
    assert (NG : forall f, prec o f f <> Greater) by (intros f; rewrite (tp_refl _ TP); discriminate).
    assert (AS : forall a b, arok ar a = true -> arok ar b = true -> kbo o a b -> ~ kbo o b a).
    { intros a b Ha Hb A B. apply (kbo_irrefl o NG a). exact (kbo_trans o ar (total_strict _ TP) AD a b a Ha Hb Ha A B). }
    assert (IR : forall a, arok ar a = true -> ~ kbo o a a) by (intros a Ha; exact (kbo_irrefl o NG a)).
    exists (fst (kbo6_compare o k s t)). split; auto.
    destruct (fst (kbo6_compare o k s t)) eqn:E1; simpl.
    + destruct H1 as [N1 [N2 N3]]. destruct (fst (kbo6_compare o k' t s)) eqn:E2; try (exfalso; tauto); [|subst; congruence].
      split; auto. split; [destruct (fst (kbo6_greater o k' s t)); auto; exfalso; tauto|]. split; [discriminate|congruence].
    + subst t. destruct (fst (kbo6_compare o k' s s)) eqn:E2; try (exfalso; eapply IR; eauto; fail); try (exfalso; tauto).
      split; auto. split; [|auto]. destruct (fst (kbo6_greater o k' s s)); auto. exfalso. apply (IR s Hs). tauto.
    + destruct (fst (kbo6_compare o k' t s)) eqn:E2; try (exfalso; tauto); try (exfalso; subst t; exact (IR s Hs H1)); try (exfalso; first [exact (AS s t Hs Ht H1 H2)|exact (AS t s Ht Hs H1 H2)]).
      split; auto. split; [destruct (fst (kbo6_greater o k' s t)); auto; exfalso; assert (false = true) by tauto; discriminate|].
      split; [discriminate|]. intros ->. exfalso. eapply IR; eauto.
    + destruct (fst (kbo6_compare o k' t s)) eqn:E2; try (exfalso; tauto); try (exfalso; subst t; exact (IR s Hs H1)); try (exfalso; first [exact (AS s t Hs Ht H1 H2)|exact (AS t s Ht Hs H1 H2)]).
      split; auto. split; [destruct (fst (kbo6_greater o k' s t)); auto; exfalso; apply (AS t s Ht Hs H1); tauto|].
      split; [discriminate|]. intros ->. exfalso. eapply IR; eauto.
  - destruct HS as [<- <-]. destruct HV as [LP F1], HV' as [_ F2]. simpl.
    assert (AS : lpo p s t -> lpo p t s -> False).
    { intros A B. apply (lpo_irrefl p LP s). exact (lpo_trans p LP s t s A B). }
    unfold lpo4_Compare. destruct (term_eqb s t) eqn:E.
    { apply term_eqb_eq in E. subst t. rewrite (proj2 (term_eqb_eq s s) eq_refl). exists Equal. simpl. split; auto. split; auto.
      unfold lpo4_Greater. rewrite lpo4_pure by lia. simpl.
      destruct (lpo4p (limit + 1 - 0) p s s) eqn:EE; auto. exfalso. apply (lpo_irrefl p LP s). eapply lpo4p_sound; eauto. }
    assert (N : s <> t) by (intros ->; rewrite (proj2 (term_eqb_eq t t) eq_refl) in E; discriminate).
    assert (E' : term_eqb t s = false).
    { destruct (term_eqb t s) eqn:EE; auto. apply term_eqb_eq in EE. congruence. }
    rewrite E'. unfold lpo4_Greater. rewrite (lpo4_pure p limit fuel 0 s t), (lpo4_pure p limit fuel' 0 s t), (lpo4_pure p limit fuel' 0 t s) by lia.
    rewrite (lpo4_pure p limit fuel 0 t s), !Nat.sub_0_r by lia.
    destruct (lpo4p (limit + 1) p s t) eqn:E1; destruct (lpo4p (limit + 1) p t s) eqn:E2.
    + exfalso. apply AS; eapply lpo4p_sound; eauto.
    + exists Greater. simpl. try rewrite !lpo4_pure, !Nat.sub_0_r by lia. try rewrite E1. try rewrite E2. simpl. repeat split; auto; try discriminate. congruence.
    + exists Lesser. simpl. try rewrite !lpo4_pure, !Nat.sub_0_r by lia. try rewrite E1. try rewrite E2. simpl. repeat split; auto; try discriminate. congruence.
    + exists Uncomparable. simpl. try rewrite !lpo4_pure, !Nat.sub_0_r by lia. try rewrite E1. try rewrite E2. simpl. repeat split; auto; try discriminate. congruence.
  - exists Uncomparable. simpl. repeat split; auto; try discriminate. congruence.
Qed.

(** ** The cache *)
Section Cache.
  Variables (isvar : Z -> bool) (real : Z -> Z -> Z -> Z -> cmp).
  (** the comparison being cached is inverse-consistent *)
  Hypothesis real_inv : forall t1 d1 t2 d2, real t2 d2 t1 d1 = cmp_inv (real t1 d1 t2 d2).

  Definition honest (o : cop) : Prop := match o with CInsert t1 d1 t2 d2 v => v <> CUnknown /\ says v (real t1 d1 t2 d2) | CFind _ _ _ _ => True end.

  Notation D := (fun _ : qkey => True).
  Definition ctrue (m : fmap qkey cres) : Prop :=
    forall q e, m q = Some e -> fst e = q /\ snd e <> CUnknown /\ let '(p1, i1, p2, i2) := q in says (snd e) (real p1 i1 p2 i2).
  Definition cinvt (c : cache) : Prop := exists m, rel quad_cmp D c m /\ ctrue m.

  Lemma says_inv v r : says (cinv v) (cmp_inv r) <-> says v r.
  Proof. destruct v as [|c| |]; destruct r; simpl; try tauto; try (split; congruence); try (destruct c; simpl; split; congruence); intuition congruence. Qed.
  Lemma cmp_inv_inv a : cmp_inv (cmp_inv a) = a. Proof. destruct a; auto. Qed.
  Lemma cinv_inv v : cinv (cinv v) = v. Proof. destruct v as [|c| |]; simpl; auto. rewrite cmp_inv_inv. auto. Qed.

  Lemma quad_eq a b : quad_cmp a b = Eq <-> a = b.
  Proof. apply (ko_eq _ _ _ C26_quadruple_keys); auto. Qed.

  Lemma set_root_rel l k v r m v2 : rel quad_cmp D (Node l k v r) m ->
    rel quad_cmp D (Node l k v2 r) (fadd qkey cres quad_cmp m k v2).
  Proof.
    intros [HB HA]. split.
    - apply (bst_node quad_cmp D C26_quadruple_keys) in HB. apply (bst_node quad_cmp D C26_quadruple_keys). tauto.
    - intros x _. specialize (HA x I). rewrite assoc_split in *. unfold fadd.
      apply (bst_node quad_cmp D C26_quadruple_keys) in HB. destruct HB as [_ [_ [_ [HL _]]]].
      destruct (quad_cmp x k) eqn:E; auto.
      apply quad_eq in E. subst x. rewrite (assoc_below quad_cmp k (inord l)); auto.
      intros e He. rewrite (ko_anti _ _ _ C26_quadruple_keys k (fst e)) by auto. rewrite (HL e He). auto.
  Qed.

  (** what the map holds for a pair, seen in the caller's orientation *)
  Definition oriented (m : fmap qkey cres) t1 d1 t2 d2 : cres :=
    let (nat_order, key) := prepare_key t1 d1 t2 d2 in
    match m key with Some e => if nat_order then snd e else cinv (snd e) | None => CUnknown end.

  Lemma find_props c m t1 d1 t2 d2 : rel quad_cmp D c m -> ctrue m ->
    let (v, c') := cache_find isvar c t1 d1 t2 d2 in
    rel quad_cmp D c' m /\ v = if isvar t1 || isvar t2 then CUnknown else oriented m t1 d1 t2 d2.
  Proof.
    intros HR HC. unfold cache_find, oriented. destruct (isvar t1 || isvar t2); auto.
    destruct (prepare_key t1 d1 t2 d2) as [no key].
    pose proof (find_rel quad_cmp D C26_quadruple_keys c m key I HR) as H. destruct (find qkey cres quad_cmp c key) as [[[k v]|] c']; destruct H as [E H]; rewrite <- E; auto.
  Qed.

  Lemma oriented_says m t1 d1 t2 d2 : ctrue m -> says (oriented m t1 d1 t2 d2) (real t1 d1 t2 d2).
  Proof.
    intros HC. unfold oriented, prepare_key. destruct (dbl_cmp t1 d1 t2 d2).
    1,2: destruct (m (t2, d2, t1, d1)) as [e|] eqn:E; [|exact I]; apply HC in E; destruct E as [_ [_ E]]; rewrite real_inv; apply says_inv; auto.
    destruct (m (t1, d1, t2, d2)) as [e|] eqn:E; [|exact I]. apply HC in E. tauto.
  Qed.

  Lemma insert_props c m t1 d1 t2 d2 v : rel quad_cmp D c m -> ctrue m -> v <> CUnknown -> says v (real t1 d1 t2 d2) ->
    let c' := snd (cache_insert isvar c t1 d1 t2 d2 v) in
    exists m', rel quad_cmp D c' m' /\ ctrue m' /\
      (forall q x, m q = Some x -> exists y, m' q = Some y /\ (forall z, snd x = CExact z -> snd y = CExact z)) /\
      (isvar t1 || isvar t2 = false -> oriented m' t1 d1 t2 d2 <> CUnknown /\ forall z, v = CExact z -> oriented m' t1 d1 t2 d2 = CExact z).
  Proof.
    intros HR HC NU HS. unfold cache_insert, oriented. destruct (isvar t1 || isvar t2).
    { simpl. exists m. split; auto. split; auto. split; [intros q x E; exists x; auto|discriminate]. }
    destruct (prepare_key t1 d1 t2 d2) as [no key] eqn:PK.
    set (val := if no then v else cinv v).
    assert (SV : let '(p1, i1, p2, i2) := key in says val (real p1 i1 p2 i2)).
    { unfold prepare_key in PK. destruct (dbl_cmp t1 d1 t2 d2); injection PK as <- <-; unfold val; auto; rewrite real_inv; apply says_inv; auto. }
    assert (NV : val <> CUnknown) by (unfold val; destruct no; auto; destruct v; simpl; congruence).
    pose proof (find_rel quad_cmp D C26_quadruple_keys c m key I HR) as H.
    destruct (find qkey cres quad_cmp c key) as [[[k old]|] c'] eqn:EF; destruct H as [E H].
    - symmetry in E. destruct (HC key _ E) as [Ek [Eo Es]]. simpl in Ek, Eo, Es. subst k.
      assert (RT : exists l r, c' = Node l key old r).
      { unfold find in EF. destruct c as [|a b d e]; [discriminate|]. destruct (splay qkey cres quad_cmp (Node a b d e) key) as [|l k1 v1 r]; [discriminate|].
        injection EF as E1 <-. destruct (quad_cmp k1 key) eqn:Q; try discriminate. injection E1 as -> ->. eauto. }
      destruct RT as [l [r ->]]. simpl. exists (fadd qkey cres quad_cmp m key (cache_upd old val)).
      assert (UP : cache_upd old val <> CUnknown /\ (let '(p1, i1, p2, i2) := key in says (cache_upd old val) (real p1 i1 p2 i2)) /\
                   (forall z, old = CExact z -> cache_upd old val = CExact z) /\ (forall z, val = CExact z -> cache_upd old val = CExact z)).
      { destruct key as [[[p1 i1] p2] i2]. destruct old as [|z0| |]; try congruence.
        - simpl. repeat split; auto; try discriminate. intros z Ez. rewrite Ez in SV. simpl in SV, Es. congruence.
        - destruct val as [|z1| |]; try congruence; simpl in *; repeat split; auto; try discriminate. intuition congruence.
        - destruct val as [|z1| |]; try congruence; simpl in *; repeat split; auto; try discriminate. intuition congruence. }
      destruct UP as [U1 [U2 [U3 U4]]]. split; [apply set_root_rel with old; auto|]. split; [|split].
      + intros q e. unfold fadd. destruct (quad_cmp q key) eqn:Q; [|apply HC..]. apply quad_eq in Q. subst q. intros EE. injection EE as <-. simpl. auto.
      + intros q x Ex. unfold fadd. destruct (quad_cmp q key) eqn:Q; [|exists x; auto..]. apply quad_eq in Q. subst q.
        rewrite Ex in E. injection E as ->. eexists. split; [reflexivity|]. simpl. auto.
      + intros _. unfold fadd. rewrite (proj2 (quad_eq key key) eq_refl). simpl. destruct no; unfold val in *.
        * split; auto.
        * split; [destruct (cache_upd old (cinv v)); simpl; congruence|]. intros z ->. simpl in *. rewrite (U4 _ eq_refl). simpl. rewrite cmp_inv_inv. auto.
    - symmetry in E. pose proof (insert_rel quad_cmp D C26_quadruple_keys c' m key val I H) as HI. unfold store.
      destruct (insert qkey cres quad_cmp c' key val) as [o c'']. destruct HI as [-> HI]. rewrite E in HI. simpl. exists (fadd qkey cres quad_cmp m key val).
      split; auto. split; [|split].
      + intros q e. unfold fadd. destruct (quad_cmp q key) eqn:Q; [|apply HC..]. apply quad_eq in Q. subst q. intros EE. injection EE as <-. simpl. auto.
      + intros q x Ex. unfold fadd. destruct (quad_cmp q key) eqn:Q; [|exists x; auto..]. apply quad_eq in Q. subst q. congruence.
      + intros _. unfold fadd. rewrite (proj2 (quad_eq key key) eq_refl). simpl. destruct no; unfold val in *.
        * split; auto.
        * split; [rewrite cinv_inv; auto|]. intros z ->. rewrite cinv_inv. auto.
  Qed.

  (** abstract content after a history *)
  Lemma crun_inv os : (forall o, In o os -> honest o) -> forall c m, rel quad_cmp D c m -> ctrue m ->
    exists m', rel quad_cmp D (fold_left (cstep isvar) os c) m' /\ ctrue m' /\
      (forall q x, m q = Some x -> exists y, m' q = Some y /\ (forall z, snd x = CExact z -> snd y = CExact z)).
  Proof.
    induction os as [|o os IH]; intros HO c m HR HC; simpl.
    - exists m. split; auto. split; auto. intros q x E. exists x. auto.
    - assert (ST : exists m1, rel quad_cmp D (cstep isvar c o) m1 /\ ctrue m1 /\
         (forall q x, m q = Some x -> exists y, m1 q = Some y /\ (forall z, snd x = CExact z -> snd y = CExact z))).
      { specialize (HO o (or_introl eq_refl)). destruct o as [t1 d1 t2 d2 v|t1 d1 t2 d2]; simpl in *.
        - destruct HO as [NU HS]. destruct (insert_props c m t1 d1 t2 d2 v HR HC NU HS) as [m1 [A [B [C _]]]]. eauto.
        - pose proof (find_props c m t1 d1 t2 d2 HR HC) as H. destruct (cache_find isvar c t1 d1 t2 d2) as [v c']. destruct H as [H _].
          exists m. split; auto. split; auto. intros q x E. exists x. auto. }
      destruct ST as [m1 [A [B C]]]. destruct (IH (fun o' Ho => HO o' (or_intror Ho)) _ m1 A B) as [m2 [A2 [B2 C2]]].
      exists m2. split; auto. split; auto. intros q x E. destruct (C q x E) as [y [Ey Py]]. destruct (C2 q y Ey) as [w [Ew Pw]]. eauto.
  Qed.

  Lemma leaf_ok : rel quad_cmp D Leaf (fempty qkey cres) /\ ctrue (fempty qkey cres).
  Proof. split; [apply leaf_rel|]. intros q e E. discriminate. Qed.

  (** C09: after any history of insertions of right answers (complete or partial) and lookups, a lookup never gives a wrong answer. *)
  Theorem C09_cache_never_lies : forall os t1 d1 t2 d2, (forall o, In o os -> honest o) ->
    says (fst (cache_find isvar (crun isvar os) t1 d1 t2 d2)) (real t1 d1 t2 d2).
  Proof.
    intros os t1 d1 t2 d2 HO. destruct leaf_ok as [R0 T0]. destruct (crun_inv os HO Leaf _ R0 T0) as [m [HR [HC _]]].
    fold (crun isvar os) in HR. pose proof (find_props _ m t1 d1 t2 d2 HR HC) as H.
    destruct (cache_find isvar (crun isvar os) t1 d1 t2 d2) as [v c']. destruct H as [_ ->]. simpl.
    destruct (isvar t1 || isvar t2); [exact I|]. apply oriented_says; auto.
  Qed.

  (** C09: an answer once inserted is not lost: later lookups of the pair, in either orientation, give the complete answer
      whatever happened in between. *)
  Theorem C09_cache_remembers : forall os1 os2 t1 d1 t2 d2 r, (forall o, In o (os1 ++ CInsert t1 d1 t2 d2 (CExact r) :: os2) -> honest o) ->
    isvar t1 = false -> isvar t2 = false ->
    let c := crun isvar (os1 ++ CInsert t1 d1 t2 d2 (CExact r) :: os2) in
    fst (cache_find isvar c t1 d1 t2 d2) = CExact r /\ fst (cache_find isvar c t2 d2 t1 d1) = CExact (cmp_inv r).
  Proof.
    intros os1 os2 t1 d1 t2 d2 r HO V1 V2 c. destruct leaf_ok as [R0 T0].
    destruct (crun_inv os1 (fun o Ho => HO o (in_or_app _ _ _ (or_introl Ho))) Leaf _ R0 T0) as [m1 [HR1 [HC1 _]]].
    assert (HI : honest (CInsert t1 d1 t2 d2 (CExact r))) by (apply HO; apply in_or_app; right; left; auto).
    simpl in HI. destruct HI as [NU HS].
    destruct (insert_props _ m1 t1 d1 t2 d2 (CExact r) HR1 HC1 NU HS) as [m2 [HR2 [HC2 [_ HX]]]].
    rewrite V1, V2 in HX. destruct (HX eq_refl) as [_ HE]. specialize (HE r eq_refl).
    destruct (crun_inv os2 (fun o Ho => HO o (in_or_app _ _ _ (or_intror (in_cons _ _ _ Ho)))) _ m2 HR2 HC2) as [m3 [HR3 [HC3 HK]]].
    assert (EC : c = fold_left (cstep isvar) os2 (snd (cache_insert isvar (fold_left (cstep isvar) os1 Leaf) t1 d1 t2 d2 (CExact r)))).
    { unfold c, crun. rewrite fold_left_app. auto. }
    rewrite <- EC in HR3.
    assert (HO3 : oriented m3 t1 d1 t2 d2 = CExact r).
    { unfold oriented in *. destruct (prepare_key t1 d1 t2 d2) as [no key]. destruct (m2 key) as [e|] eqn:E; [|discriminate].
      destruct (HK key e E) as [y [Ey Py]]. rewrite Ey. destruct no; [auto|].
      destruct (snd e) as [|z| |]; try discriminate. simpl in HE. rewrite (Py z eq_refl). auto. }
    assert (TR : real t1 d1 t2 d2 = r) by (simpl in HS; auto).
    split.
    - pose proof (find_props c m3 t1 d1 t2 d2 HR3 HC3) as H. destruct (cache_find isvar c t1 d1 t2 d2) as [v c']. destruct H as [_ ->].
      rewrite V1, V2. auto.
    - pose proof (find_props c m3 t2 d2 t1 d1 HR3 HC3) as H. destruct (cache_find isvar c t2 d2 t1 d1) as [v c']. destruct H as [_ ->].
      rewrite V1, V2. simpl. unfold oriented, prepare_key in *.
      pose proof (dbl_cmp_lex t1 d1 t2 d2) as L1. pose proof (dbl_cmp_lex t2 d2 t1 d1) as L2.
      assert (L3 : dbl_cmp t2 d2 t1 d1 = CompOpp (dbl_cmp t1 d1 t2 d2)).
      { rewrite L1, L2. rewrite (Z.compare_antisym t1 t2), (Z.compare_antisym d1 d2). destruct (Z.compare t1 t2), (Z.compare d1 d2); auto. }
      rewrite L3. destruct (dbl_cmp t1 d1 t2 d2) eqn:Q; simpl.
      + assert (t1 = t2 /\ d1 = d2) as [<- <-].
        { rewrite L1 in Q. destruct (Z.compare_spec t1 t2); try discriminate. destruct (Z.compare_spec d1 d2); try discriminate. auto. }
        destruct (m3 (t1, d1, t1, d1)) as [e|] eqn:E; [|discriminate].
        assert (r = cmp_inv r) by (rewrite <- TR at 1; rewrite <- TR; rewrite <- real_inv; auto). congruence.
      + destruct (m3 (t2, d2, t1, d1)) as [e|] eqn:E; [|discriminate]. destruct (snd e); try discriminate. simpl in HO3. injection HO3 as <-. rewrite cmp_inv_inv. auto.
      + destruct (m3 (t1, d1, t2, d2)) as [e|] eqn:E; [|discriminate]. rewrite HO3. auto.
  Qed.
End Cache.

(** ** Non-vacuity *)
Definition exreal (t1 d1 t2 d2 : Z) : cmp :=
  match Z.compare t1 t2 with Eq => Equal | Lt => if Z.odd (t1 + t2) then Lesser else Uncomparable | Gt => if Z.odd (t1 + t2) then Greater else Uncomparable end.
Example C09_example_real_consistent : forall t1 d1 t2 d2, exreal t2 d2 t1 d1 = cmp_inv (exreal t1 d1 t2 d2).
Proof.
  intros. unfold exreal. rewrite (Z.add_comm t2 t1), (Z.compare_antisym t1 t2). destruct (Z.compare t1 t2), (Z.odd (t1 + t2)); auto.
Qed.
Definition exops := [CInsert 10 1 14 1 CNotGtEq; CInsert 11 1 14 1 (CExact Lesser); CFind 14 1 10 1; CInsert 14 1 10 1 CNotGtEq; CInsert 3 0 8 0 (CExact Lesser)]%Z.
Example C09_example_history : (forall o, In o exops -> honest exreal o) /\
  fst (cache_find (fun _ => false) (crun (fun _ => false) exops) 10 1 14 1) = CExact Uncomparable /\
  fst (cache_find (fun _ => false) (crun (fun _ => false) exops) 8 0 3 0) = CExact Greater /\
  fst (cache_find (fun _ => false) (crun (fun _ => false) exops) 8 0 4 0) = CUnknown.
Proof.
  split; [|vm_compute; auto].
  intros o H. repeat (destruct H as [<-|H]; [vm_compute; intuition congruence|]). destruct H.
Qed.
Example C09_example_valid : to_valid exar (TKBO6 exo kinit) /\ to_valid exar (TLPO4 100 50 (prec exo)).
Proof.
  split.
  - split; [exact exo_total|]. split; [exact exo_admissible|constructor].
  - split; [|lia]. destruct exo_total as [A B C Dd]. split; auto. intros f g E. destruct (Nat.eq_dec f g) as [|N]; auto.
    destruct (B f g N); congruence.
Qed.

Print Assumptions C09_answers_consistent.
Print Assumptions C09_cache_never_lies.
Print Assumptions C09_cache_remembers.
