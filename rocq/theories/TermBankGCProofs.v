(** Mark and sweep. *)
From Coq Require Import Permutation.
From Verif Require Import Terms Splay SplayProofs SplayProps TermBank TermBankProofs TermBankOpsProofs.
Local Open Scope Z_scope.

(** [b'] differs from [b] in garbage flags only *)
Record fv (b b' : bank) : Prop := {
  f_some : forall x c, heap b x = Some c -> exists g, heap b' x = Some (set_gflag c g);
  f_none : forall x, heap b x = None -> heap b' x = None;
  f_store : store b' = store b; f_var : varcell b' = varcell b; f_gst : gstate b' = gstate b; f_ent : entries b' = entries b;
  f_roots : true_term b' = true_term b /\ false_term b' = false_term b /\ min_terms b' = min_terms b
}.
Lemma fv_refl b : fv b b.
Proof. split; auto. intros x c E. exists (gflag c). rewrite E. destruct c; auto. Qed.

Definition marked (b : bank) (x : Z) : Prop := exists c, heap b x = Some c /\ gflag c <> gstate b.
Definition kid (b : bank) (x y : Z) : Prop := exists c, heap b x = Some c /\ (In y (cargs c) \/ replace c = Some y).

Lemma kid_shared b x y : inv b -> shared b x -> kid b x y -> shared b y /\ stored b x.
Proof.
  intros I [S|[f S]] [c [E K]].
  - split; auto. destruct S as [k S]. destruct (i_cell b I k x S) as [c' [E' [_ [_ [_ [A [R _]]]]]]]. rewrite E in E'. injection E' as <-.
    destruct K; auto.
  - exfalso. destruct (i_var b I f x S) as [_ [c' [E' [_ [A [R _]]]]]]. rewrite E in E'. injection E' as <-. rewrite A, R in K. destruct K as [[]|K]; discriminate.
Qed.
Lemma reach_shared b roots x : inv b -> (forall y, In y roots -> shared b y) -> reachable (heap b) roots x -> shared b x.
Proof.
  intros I R H. induction H as [x H|x c y _ IH E Hy|x c y _ IH E Hy]; auto.
  - apply (kid_shared b x y I IH). exists c. auto.
  - apply (kid_shared b x y I IH). exists c. auto.
Qed.
Lemma reach_kid b roots x y : reachable (heap b) roots x -> kid b x y -> reachable (heap b) roots y.
Proof. intros R [c [E [H|H]]]; [eapply reach_arg; eauto|eapply reach_link; eauto]. Qed.
Lemma reach_mono b roots roots' : (forall y, In y roots -> reachable (heap b) roots' y) -> forall x, reachable (heap b) roots x -> reachable (heap b) roots' x.
Proof. intros H x R. induction R; auto; [eapply reach_arg; eauto|eapply reach_link; eauto]. Qed.

(** *** fuel *)
Definition cell_work (c : cell) : nat := S (length (cargs c) + match replace c with Some _ => 1 | None => 0 end).
Definition work (b : bank) (x : Z) : nat :=
  match heap b x with Some c => if Bool.eqb (gflag c) (gstate b) then cell_work c else 0%nat | None => 0%nat end.
Definition total_work (b : bank) (u : list Z) : nat := fold_right (fun x n => (work b x + n)%nat) 0%nat u.
Definition max_work (b : bank) (u : list Z) : nat :=
  fold_right (fun x n => ((match heap b x with Some c => cell_work c | None => 0 end) + n)%nat) 0%nat u.
Lemma total_max b b1 u : fv b b1 -> (total_work b1 u <= max_work b u)%nat.
Proof.
  intros F. induction u as [|x u IH]; cbn [total_work max_work fold_right]; auto. fold (total_work b1 u). fold (max_work b u).
  enough (work b1 x <= match heap b x with Some c => cell_work c | None => 0 end)%nat by lia. unfold work.
  destruct (heap b x) as [c|] eqn:E.
  - destruct (f_some b b1 F x c E) as [g ->]. destruct (Bool.eqb (gflag (set_gflag c g)) (gstate b1)); [|lia]. destruct c; auto.
  - rewrite (f_none b b1 F x E). auto.
Qed.
Lemma total_flip b a c u : heap b a = Some c -> gflag c = gstate b -> NoDup u -> In a u ->
  (total_work (write b a (set_gflag c (negb (gflag c)))) u + cell_work c = total_work b u)%nat.
Proof.
  intros E G. set (b' := write b a (set_gflag c (negb (gflag c)))).
  assert (OT : forall x, x <> a -> work b' x = work b x).
  { intros x N. unfold work. cbn [heap write set_mem b' gstate]. rewrite upd_other by auto. auto. }
  assert (AT : work b' a = 0%nat).
  { unfold work. cbn [heap write set_mem b' gstate]. rewrite upd_same. cbn. rewrite G. destruct (gstate b); auto. }
  assert (AB : work b a = cell_work c) by (unfold work; rewrite E, G, eqb_reflx; auto).
  assert (ALL : forall v, ~ In a v -> total_work b' v = total_work b v).
  { induction v as [|x v IH]; cbn [total_work fold_right]; auto. intros N. cbn [In] in N. fold (total_work b' v). fold (total_work b v).
    rewrite IH, OT by tauto. auto. }
  induction u as [|x u IH]; intros N H; [destruct H|]. apply NoDup_cons_iff in N. destruct N as [N1 N2].
  cbn [total_work fold_right]. fold (total_work b' u). fold (total_work b u). destruct H as [->|H].
  - rewrite AT, AB, ALL by auto. lia.
  - assert (x <> a) by congruence. rewrite OT by auto. specialize (IH N2 H). lia.
Qed.

(** *** marking *)
Lemma gc_mark_spec b u : inv b -> NoDup u -> (forall x, heap b x <> None -> In x u) ->
  forall fuel b1 stack, fv b b1 -> (forall x, In x stack -> shared b x) ->
    (forall x y, marked b1 x -> kid b x y -> stored b x -> marked b1 y \/ In y stack) ->
    (length stack + total_work b1 u <= fuel)%nat ->
    exists b2, gc_mark fuel b1 stack = Ok b2 /\ fv b b2 /\ (forall x, marked b1 x -> marked b2 x) /\ (forall x, In x stack -> marked b2 x) /\
      (forall x y, marked b2 x -> kid b x y -> stored b x -> marked b2 y) /\
      (forall x, marked b2 x -> marked b1 x \/ reachable (heap b) stack x).
Proof.
  intros I ND U. induction fuel as [|n IH]; intros b1 stack F SH CL W.
  - destruct stack as [|a st]; [|cbn in W; lia]. exists b1. cbn. split; auto. split; auto. split; auto. split; [tauto|].
    split; [|auto]. intros x y H1 H2 H3. destruct (CL x y H1 H2 H3) as [|[]]; auto.
  - destruct stack as [|a st].
    { exists b1. cbn. split; auto. split; auto. split; auto. split; [tauto|].
      split; [|auto]. intros x y H1 H2 H3. destruct (CL x y H1 H2 H3) as [|[]]; auto. }
    cbn [gc_mark]. destruct (inv_shared_cell b a I (SH a (or_introl eq_refl))) as [c0 E0].
    destruct (f_some b b1 F a c0 E0) as [g E1]. set (c := set_gflag c0 g) in *. rewrite E1.
    destruct (Bool.eqb (gflag c) (gstate b1)) eqn:EQ.
    + apply eqb_prop in EQ. set (b' := write b1 a (set_gflag c (negb (gflag c)))).
      set (stack' := match replace c with Some r => [r] | None => [] end ++ rev (cargs c) ++ st).
      assert (F' : fv b b').
      { destruct F as [A1 A2 A3 A4 A5 A6 A7]. split; auto.
        - intros x cx Ex. cbn [heap b' write set_mem]. destruct (Z.eq_dec x a) as [->|N].
          + rewrite upd_same. rewrite E0 in Ex. injection Ex as <-. eexists. reflexivity.
          + rewrite upd_other by auto. auto.
        - intros x Ex. cbn [heap b' write set_mem]. rewrite upd_other by congruence. auto. }
      assert (Ma : marked b' a).
      { exists (set_gflag c (negb (gflag c))). split; [cbn [heap b' write set_mem]; apply upd_same|].
        change (gflag (set_gflag c (negb (gflag c)))) with (negb (gflag c)). change (gstate b') with (gstate b1). rewrite EQ. destruct (gstate b1); discriminate. }
      assert (Mo : forall x, x <> a -> marked b' x <-> marked b1 x).
      { intros x N. unfold marked. cbn [heap b' write set_mem gstate]. rewrite upd_other by auto. tauto. }
      assert (Mm : forall x, marked b1 x -> marked b' x).
      { intros x H. destruct (Z.eq_dec x a) as [->|N]; auto. apply Mo; auto. }
      assert (KD : forall y, kid b a y -> In y stack').
      { intros y [c1 [Ec [H|H]]]; rewrite E0 in Ec; injection Ec as <-; unfold stack'.
        - apply in_or_app. right. apply in_or_app. left. apply in_rev in H. exact H.
        - apply in_or_app. left. cbn [replace c set_gflag]. rewrite H. cbn; auto. }
      assert (ST' : forall y, In y stack' -> kid b a y \/ In y st).
      { intros y H. unfold stack' in H. apply in_app_or in H. destruct H as [H|H].
        - left. exists c0. split; auto. right. change (replace c) with (replace c0) in H. destruct (replace c0); [destruct H as [<-|[]]; auto|destruct H].
        - apply in_app_or in H. destruct H as [H|H]; auto. left. exists c0. split; auto. left. apply in_rev in H. exact H. }
      destruct (IH b' stack') as [b2 [R [F2 [M2 [S2 [C2 B2]]]]]]; auto.
      * intros y H. destruct (ST' y H) as [K|H']; [|apply SH; cbn; auto]. apply (kid_shared b a y I); auto. apply SH. cbn; auto.
      * intros x y H1 H2 H3. destruct (Z.eq_dec x a) as [->|N]; [right; auto|]. apply Mo in H1; auto. destruct (CL x y H1 H2 H3) as [H4|[<-|H4]]; auto.
        right. unfold stack'. apply in_or_app. right. apply in_or_app. auto.
      * assert (Ua : In a u) by (apply U; congruence). pose proof (total_flip b1 a c u E1 EQ ND Ua) as T. fold b' in T. unfold stack'.
        rewrite !app_length, rev_length. cbn [length] in W. unfold cell_work in T. destruct (replace c); cbn [length]; lia.
      * exists b2. split; auto. split; auto. split; auto. split.
        -- intros x [<-|H]; auto. apply S2. unfold stack'. apply in_or_app. right. apply in_or_app. auto.
        -- split; auto. intros x H. destruct (B2 x H) as [H1|H1].
           ++ destruct (Z.eq_dec x a) as [->|N]; [right; apply reach_root; cbn; auto|]. apply Mo in H1; auto.
           ++ right. revert H1. apply reach_mono. intros y Hy. destruct (ST' y Hy) as [K|H']; [|apply reach_root; cbn; auto].
              eapply reach_kid; [|exact K]. apply reach_root. cbn; auto.
    + assert (Ma : marked b1 a).
      { exists c. split; auto. intros X. rewrite X, eqb_reflx in EQ. discriminate. }
      destruct (IH b1 st) as [b2 [R [F2 [M2 [S2 [C2 B2]]]]]]; auto.
      * intros y H. apply SH. cbn; auto.
      * intros x y H1 H2 H3. destruct (CL x y H1 H2 H3) as [H4|[<-|H4]]; auto.
      * cbn [length] in W. lia.
      * exists b2. split; auto. split; auto. split; auto. split; [intros x [<-|H]; auto|]. split; auto.
        intros x H. destruct (B2 x H) as [|H1]; auto. right. revert H1. apply reach_mono. intros y Hy. apply reach_root. cbn; auto.
Qed.

Definition mark_closed (b b1 : bank) : Prop := forall x y, marked b1 x -> kid b x y -> stored b x -> marked b1 y.
(** the state after marking from some roots *)
Definition marks (b : bank) (done : list Z) (b1 : bank) : Prop :=
  fv b b1 /\ mark_closed b b1 /\ (forall x, In x done -> marked b1 x) /\
  (forall x, stored b x -> marked b1 x -> reachable (heap b) done x).

Lemma gc_mark_one b u : inv b -> NoDup u -> (forall x, heap b x <> None -> In x u) -> forall fuel b1 done r,
  marks b done b1 -> shared b r -> (1 + max_work b u <= fuel)%nat -> exists b2, gc_mark fuel b1 [r] = Ok b2 /\ marks b (done ++ [r]) b2.
Proof.
  intros I ND U fuel b1 done r [F [C [D B]]] S W.
  destruct (gc_mark_spec b u I ND U fuel b1 [r]) as [b2 [R [F2 [M2 [S2 [C2 B2]]]]]]; auto.
  - intros x [<-|[]]; auto.
  - intros x y H1 H2 H3. left. apply (C x y); auto.
  - pose proof (total_max b b1 u F). cbn [length]. lia.
  - exists b2. split; auto. split; auto. split; [exact C2|]. split.
    + intros x H. apply in_app_or in H. destruct H as [H|[<-|[]]]; auto. apply S2. cbn; auto.
    + intros x Sx H. destruct (B2 x H) as [H1|H1].
      * specialize (B x Sx H1). revert B. apply reach_mono. intros y Hy. apply reach_root, in_or_app. auto.
      * revert H1. apply reach_mono. intros y Hy. apply reach_root, in_or_app. auto.
Qed.
Lemma gc_mark_all_spec b u : inv b -> NoDup u -> (forall x, heap b x <> None -> In x u) -> forall fuel roots b1 done,
  marks b done b1 -> (forall x, In x roots -> shared b x) -> (1 + max_work b u <= fuel)%nat ->
  exists b2, gc_mark_all fuel b1 roots = Ok b2 /\ marks b (done ++ roots) b2.
Proof.
  intros I ND U fuel. induction roots as [|r rs IH]; intros b1 done M S W.
  - exists b1. cbn. rewrite app_nil_r. auto.
  - cbn [gc_mark_all]. destruct (gc_mark_one b u I ND U fuel b1 done r M (S r (or_introl eq_refl)) W) as [b2 [R M2]]. rewrite R. cbn [rbind].
    destruct (IH b2 (done ++ [r]) M2) as [b3 [R3 M3]]; auto; [intros x Hx; apply S; cbn; auto|]. exists b3. split; auto.
    rewrite <- app_assoc in M3. exact M3.
Qed.
Lemma marks_start b : inv b -> marks b [] b.
Proof.
  intros I. split; [apply fv_refl|].
  assert (N : forall x, stored b x -> ~ marked b x).
  { intros x [k S] [c [E G]]. destruct (i_cell b I k x S) as [c' [E' [_ [_ [G' _]]]]]. rewrite E in E'. injection E' as <-. contradiction. }
  split; [|split].
  - intros x y H _ S. destruct (N x S H).
  - intros x [].
  - intros x S H. destruct (N x S H).
Qed.
(** marked stored cells are exactly the reachable ones *)
Lemma marks_exact b done b1 : inv b -> (forall x, In x done -> shared b x) -> marks b done b1 ->
  forall x, stored b x -> (marked b1 x <-> reachable (heap b) done x).
Proof.
  intros I S [F [C [D B]]] x Sx. split; [apply B; auto|]. intros R. clear Sx.
  induction R as [x H|x c y R IH E Hy|x c y R IH E Hy].
  - apply D. auto.
  - pose proof (reach_shared b done x I S R) as Sx. assert (K : kid b x y) by (exists c; auto).
    apply (C x y); auto. apply (kid_shared b x y I Sx K).
  - pose proof (reach_shared b done x I S R) as Sx. assert (K : kid b x y) by (exists c; auto).
    apply (C x y); auto. apply (kid_shared b x y I Sx K).
Qed.

(** *** sweeping *)
Record dinv (b : bank) : Prop := {
  d_tok : forall i, tok (store b i);
  d_hash : forall i k a, look (store b i) k = Some (k, a) -> i = hash k;
  d_cell : forall k a, st b k a -> exists c, heap b a = Some c /\ ckey c = k;
  d_cnt : entries b = total (store b) bucket_list
}.
Record swept (P : Z -> Prop) (b b' : bank) : Prop := {   (* the cells satisfying P are gone *)
  w_inv : dinv b';
  w_st : forall k x, st b' k x <-> st b k x /\ ~ P x;
  w_heap : forall x, (P x -> heap b' x = None) /\ (~ P x -> heap b' x = heap b x);
  w_var : varcell b' = varcell b; w_gst : gstate b' = gstate b;
  w_roots : true_term b' = true_term b /\ false_term b' = false_term b /\ min_terms b' = min_terms b
}.

Lemma store_delete_spec b k a : dinv b -> st b k a -> exists b', store_delete b a = Ok b' /\ swept (fun x => x = a) b b' /\ entries b' = entries b - 1.
Proof.
  intros I S. destruct (d_cell b I k a S) as [c [E K]]. unfold store_delete. rewrite E, K.
  pose proof (extract_look (store b (hash k)) k (d_tok b I _)) as H. destruct (extract key Z top_cmp (store b (hash k)) k) as [o tr].
  destruct H as [Ho [Ht HL]]. unfold st in S. rewrite S in Ho. subst o.
  set (b' := free_cell (set_store b (upd (store b) (hash k) tr) (entries b - 1)) a). exists b'. split; auto. split; auto.
  assert (LL : forall j x, look (store b' j) x = if j =? hash k then (if key_dec x k then None else look (store b j) x) else look (store b j) x).
  { intros j x. cbn [store b' free_cell set_mem set_store]. unfold upd. destruct (Z.eqb_spec j (hash k)) as [->|]; auto. }
  assert (ST : forall k' x, st b' k' x <-> st b k' x /\ x <> a).
  { intros k' x. unfold st. rewrite LL. destruct (Z.eqb_spec (hash k') (hash k)) as [Eh|N].
    - destruct (key_dec k' k) as [->|N2].
      + rewrite S. split; [discriminate|]. intros [[= <-] X]. congruence.
      + split; [|tauto]. intros H. split; auto. intros ->. apply N2. destruct (d_cell b I k' a H) as [c' [E' K']]. congruence.
    - split; [|tauto]. intros H. split; auto. intros ->. apply N. destruct (d_cell b I k' a H) as [c' [E' K']]. congruence. }
  split; auto; try reflexivity.
  - split.
    + intros j. cbn [store b' free_cell set_mem set_store]. unfold upd. destruct (Z.eqb_spec j (hash k)); auto. apply (d_tok b I).
    + intros j k' x H. rewrite LL in H. destruct (Z.eqb_spec j (hash k)) as [->|N].
      * destruct (key_dec k' k) as [->|N2]; [auto|]. apply (d_hash b I _ k' x H).
      * apply (d_hash b I j k' x H).
    + intros k' x H. apply ST in H. destruct H as [H N]. destruct (d_cell b I k' x H) as [c' [E' K']]. exists c'. split; auto.
      cbn [heap b' free_cell set_mem]. rewrite upd_other by auto. exact E'.
    + cbn [entries b' free_cell set_mem set_store store]. rewrite total_upd by (apply bucket_nodup || apply hash_in).
      rewrite (tlen_del (store b (hash k)) tr k a); auto; [|apply (d_tok b I)]. rewrite (d_cnt b I). lia.
  - intros x. split; [intros ->; cbn [heap b' free_cell set_mem]; apply upd_same|]. intros N. cbn [heap b' free_cell set_mem]. apply upd_other. auto.
Qed.
Lemma delete_all_spec : forall l b, dinv b -> NoDup l -> (forall a, In a l -> stored b a) ->
  exists b', delete_all b l = Ok b' /\ swept (fun x => In x l) b b' /\ entries b' = entries b - Z.of_nat (length l).
Proof.
  induction l as [|a l IH]; intros b I N S.
  - exists b. split; auto. split; [|cbn; lia]. split; auto. + intros k x. cbn. tauto. + intros x. cbn. tauto.
  - apply NoDup_cons_iff in N. destruct N as [N1 N2]. destruct (S a (or_introl eq_refl)) as [k Sk].
    destruct (store_delete_spec b k a I Sk) as [b1 [E1 [[A1 A2 A3 A4 A5 [A6 [A7 A8]]] En]]]. cbn [delete_all]. rewrite E1. cbn [rbind].
    destruct (IH b1 A1 N2) as [b2 [E2 [[B1 B2 B3 B4 B5 [B6 [B7 B8]]] En2]]].
    { intros x Hx. destruct (S x (or_intror Hx)) as [k' Sk']. exists k'. apply A2. split; auto. congruence. }
    exists b2. split; auto. split; [|cbn [length]; lia]. split; auto; try congruence.
    + intros k' x. rewrite B2, A2. cbn [In]. split; [intros [[H1 H2] H3]; split; auto; intros [X|X]; congruence|]. intros [H1 H2]. split; [split|]; auto. 
    + intros x. destruct (B3 x) as [C1 C2]. destruct (A3 x) as [D1 D2]. cbn [In]. destruct (in_dec Z.eq_dec x l) as [H|H].
      * split; [auto|]. intros X. exfalso. auto.
      * rewrite (C2 H). split; [intros [X|X]; [apply D1; congruence|contradiction]|]. intros X. apply D2. intros ->. auto.
    + split; [congruence|]. split; congruence.
Qed.

Definition unm (h : Z -> option cell) (g : bool) (a : Z) : bool := match h a with Some c => Bool.eqb (gflag c) g | None => false end.
Lemma collect_spec h g (t : ktree) : (forall k a, In (k, a) (inordk t) -> h a <> None) ->
  exists l, collect_unmarked h g t = Ok l /\ Permutation l (filter (unm h g) (map snd (inordk t))).
Proof.
  induction t as [|tl IHl k a tr IHr]; intros H; [exists []; split; cbn; auto|]. cbn [inord] in H.
  destruct IHl as [ll [El Pl]]; [intros k' a' Ha; apply (H k'), in_or_app; auto|].
  destruct IHr as [lr [Er Pr]]; [intros k' a' Ha; apply (H k'), in_or_app; right; cbn; auto|].
  cbn [collect_unmarked]. destruct (h a) as [c|] eqn:Ea; [|exfalso; apply (H k a); auto; apply in_or_app; right; cbn; auto].
  rewrite Er, El. cbn [rbind]. eexists. split; [reflexivity|]. cbn [inord]. rewrite map_app, filter_app. cbn [map filter snd].
  unfold unm at 2. rewrite Ea. destruct (Bool.eqb (gflag c) g); cbn.
  - apply Permutation_cons_app. rewrite Pl, Pr. apply Permutation_app_comm.
  - rewrite Pl, Pr. apply Permutation_app_comm.
Qed.

Lemma sweep_spec : forall is b n, dinv b -> NoDup is ->
  exists b' m, sweep_buckets b is n = Ok (b', m) /\
    swept (fun x => exists k, st b k x /\ In (hash k) is /\ unm (heap b) (gstate b) x = true) b b' /\ entries b' = entries b - (m - n).
Proof.
  induction is as [|i is IH]; intros b n I ND.
  - exists b, n. split; auto. split; [|lia]. split; auto.
    + intros k x. split; [|tauto]. intros H. split; auto. intros [k' [_ [[] _]]].
    + intros x. split; auto. intros [k' [_ [[] _]]].
  - apply NoDup_cons_iff in ND. destruct ND as [N1 N2]. cbn [sweep_buckets].
    assert (IN : forall k a, In (k, a) (inordk (store b i)) <-> st b k a /\ hash k = i).
    { intros k a. rewrite <- look_in by apply (d_tok b I). split.
      - intros H. pose proof (d_hash b I i k a H) as Q. split; auto. unfold st. rewrite <- Q. auto.
      - intros [H <-]. auto. }
    destruct (collect_spec (heap b) (gstate b) (store b i)) as [l [El Pl]].
    { intros k a H. apply IN in H. destruct H as [H _]. destruct (d_cell b I k a H) as [c [E _]]. congruence. }
    rewrite El. cbn [rbind].
    assert (INL : forall x, In x l <-> exists k, st b k x /\ hash k = i /\ unm (heap b) (gstate b) x = true).
    { intros x. split.
      - intros H. apply (Permutation_in x Pl) in H. apply filter_In in H. destruct H as [H U]. apply in_map_iff in H. destruct H as [[k a] [<- H]].
        apply IN in H. exists k. cbn [snd] in *. tauto.
      - intros [k [H [E U]]]. apply (Permutation_in x (Permutation_sym Pl)), filter_In. split; auto. apply in_map_iff. exists (k, x). split; auto. apply IN. auto. }
    assert (NDL : NoDup l).
    { apply (Permutation_NoDup (Permutation_sym Pl)). apply NoDup_filter.
      assert (Q : forall k k' a, In (k, a) (inordk (store b i)) -> In (k', a) (inordk (store b i)) -> k = k').
      { intros k k' a H H'. apply IN in H, H'. destruct (d_cell b I k a (proj1 H)) as [c [E K]], (d_cell b I k' a (proj1 H')) as [c' [E' K']]. congruence. }
      pose proof (tok_nodup _ (d_tok b I i)) as ND'. revert Q ND'. generalize (inordk (store b i)) as L. clear.
      induction L as [|[k a] L IH]; intros Q ND; cbn [map snd]; [constructor|]. apply NoDup_cons_iff in ND. destruct ND as [N1 N2]. constructor.
      - intros H. apply in_map_iff in H. destruct H as [[k' a'] [E H]]. cbn in E. subst a'. apply N1.
        rewrite (Q k k' a); [auto|left; auto|right; auto].
      - apply IH; auto. intros k1 k2 x H1 H2. apply (Q k1 k2 x); right; auto. }
    destruct (delete_all_spec (rev l) b I) as [b1 [E1 [SW En]]].
    { apply NoDup_rev. auto. }
    { intros a Ha. apply in_rev in Ha. apply INL in Ha. destruct Ha as [k [H _]]. exists k. auto. }
    rewrite E1. cbn [rbind]. destruct SW as [A1 A2 A3 A4 A5 [A6 [A7 A8]]].
    destruct (IH b1 (n + Z.of_nat (length l)) A1 N2) as [b2 [m [E2 [[B1 B2 B3 B4 B5 [B6 [B7 B8]]] En2]]]].
    exists b2, m. split; auto. rewrite rev_length in En. split; [|lia].
    assert (INR : forall x, In x (rev l) <-> In x l) by (intros x; rewrite <- in_rev; tauto).
    assert (PP : forall x, (exists k, st b k x /\ In (hash k) (i :: is) /\ unm (heap b) (gstate b) x = true) <->
      In x l \/ (exists k, st b1 k x /\ In (hash k) is /\ unm (heap b1) (gstate b1) x = true)).
    { intros x. split.
      - intros [k [H [[E|Hi] U]]]; [left; apply INL; exists k; auto|]. destruct (in_dec Z.eq_dec x l) as [|NL]; auto. right. exists k.
        rewrite A2, INR, A5. split; auto. split; auto. unfold unm. destruct (A3 x) as [_ Q]. rewrite Q; [exact U|]. rewrite INR. auto.
      - intros [H|[k [H [Hi U]]]].
        + apply INL in H. destruct H as [k [H [E U]]]. exists k. split; auto. split; auto. left; auto.
        + apply A2 in H. destruct H as [H NL]. exists k. split; auto. split; [right; auto|]. rewrite A5 in U. unfold unm in U. destruct (A3 x) as [_ Q]. rewrite (Q NL) in U. exact U. }
    split; auto; try congruence.
    + intros k x. rewrite PP, B2, A2, INR. tauto.
    + intros x. rewrite PP. destruct (B3 x) as [C1 C2], (A3 x) as [D1 D2]. rewrite INR in D1, D2. split.
      * intros [H|H]; auto.
        (* already freed *)
        assert (NS : ~ exists k, st b1 k x /\ In (hash k) is /\ unm (heap b1) (gstate b1) x = true).
        { intros [k [Q _]]. apply A2 in Q. rewrite INR in Q. tauto. }
        rewrite (C2 NS). auto.
      * intros H. rewrite C2 by tauto. apply D2. tauto.
    + split; [congruence|]. split; congruence.
Qed.

(** *** a whole collection *)
Definition gc_result (b : bank) (roots : list Z) (b' : bank) (n : Z) : Prop :=
  pinv b' /\
  (forall x, stored b' x <-> stored b x /\ reachable (heap b) (all_roots b roots) x) /\
  varcell b' = varcell b /\
  (forall x c, heap b x = Some c -> (is_var b x \/ reachable (heap b) (all_roots b roots) x) -> exists c', heap b' x = Some c' /\ same_cell c c') /\
  (forall x, stored b x -> ~ reachable (heap b) (all_roots b roots) x -> heap b' x = None) /\
  (forall x, heap b x = None -> heap b' x = None) /\
  n = entries b - entries b' /\ recovered b' = recovered b + n /\
  true_term b' = true_term b /\ false_term b' = false_term b /\ min_terms b' = min_terms b.

Lemma recovered_fv_mark fuel : forall b1 stack b2, gc_mark fuel b1 stack = Ok b2 -> recovered b2 = recovered b1 /\ tick b2 = tick b1.
Proof.
  induction fuel as [|n IH]; intros b1 [|a st] b2; cbn [gc_mark]; try (intros [= <-]; auto); try discriminate.
  destruct (heap b1 a) as [c|]; [|discriminate]. destruct (Bool.eqb (gflag c) (gstate b1)); intros H; apply IH in H; exact H.
Qed.
Lemma recovered_mark_all fuel : forall roots b1 b2, gc_mark_all fuel b1 roots = Ok b2 -> recovered b2 = recovered b1 /\ tick b2 = tick b1.
Proof.
  induction roots as [|r rs IH]; intros b1 b2; cbn [gc_mark_all]; [intros [= <-]; auto|].
  destruct (gc_mark fuel b1 [r]) as [b'| |] eqn:E; cbn [rbind]; try discriminate. intros H. destruct (IH _ _ H) as [-> ->]. eapply recovered_fv_mark; eauto.
Qed.
Lemma recovered_delete : forall l b b', delete_all b l = Ok b' -> recovered b' = recovered b /\ (tick b <= tick b')%nat.
Proof.
  induction l as [|a l IH]; intros b b'; cbn [delete_all]; [intros [= <-]; auto|]. unfold store_delete.
  destruct (heap b a) as [c|]; [|discriminate]. destruct (extract key Z top_cmp (store b (hash (ckey c))) (ckey c)) as [[[k a']|] tr]; cbn [rbind]; intros H; apply IH in H; destruct H as [-> H]; cbn in *; split; auto; lia.
Qed.
Lemma recovered_sweep : forall is b n b' m, sweep_buckets b is n = Ok (b', m) -> recovered b' = recovered b /\ (tick b <= tick b')%nat.
Proof.
  induction is as [|i is IH]; intros b n b' m; cbn [sweep_buckets]; [intros [= <- _]; auto|].
  destruct (collect_unmarked (heap b) (gstate b) (store b i)) as [l| |]; cbn [rbind]; try discriminate.
  destruct (delete_all b (rev l)) as [b1| |] eqn:E; cbn [rbind]; try discriminate. intros H. destruct (IH _ _ _ _ H) as [-> L]. destruct (recovered_delete _ _ _ E) as [-> L2]. split; auto; lia.
Qed.

Lemma gc_collect_spec b roots : pinv b -> (forall x, In x roots -> shared b x) ->
  exists need, forall fuel, (need <= fuel)%nat -> exists b' n, gc_collect fuel roots b = Ok (b', n) /\ gc_result b roots b' n.
Proof.
  intros [I [R1 [R2 R3]] LK] SR.
  destruct (i_fin b I) as [u0 [LU U0]]. set (u := nodup Z.eq_dec u0). assert (ND : NoDup u) by apply NoDup_nodup.
  assert (U : forall x, heap b x <> None -> In x u) by (intros x H; apply nodup_In; auto).
  exists (1 + max_work b u)%nat. intros fuel W. unfold gc_collect, gc_sweep.
  destruct (gc_mark_all_spec b u I ND U fuel roots b [] (marks_start b I) SR W) as [b0 [E0 M0]]. rewrite E0. cbn [rbind]. cbn [List.app] in M0.
  destruct (f_roots b b0 (proj1 M0)) as [Q1 [_ _]]. rewrite Q1.
  destruct (gc_mark_one b u I ND U fuel b0 roots (true_term b) M0 R1 W) as [b1 [E1 M1]]. rewrite E1. cbn [rbind].
  destruct (f_roots b b1 (proj1 M1)) as [_ [Q2 _]]. rewrite Q2.
  destruct (gc_mark_one b u I ND U fuel b1 _ (false_term b) M1 R2 W) as [b2 [E2 M2]]. rewrite E2. cbn [rbind].
  destruct (f_roots b b2 (proj1 M2)) as [_ [_ Q3]]. rewrite Q3.
  assert (SM : forall x, In x (map snd (min_terms b)) -> shared b x).
  { intros x H. apply in_map_iff in H. destruct H as [[ty a] [<- H]]. apply (R3 ty a H). }
  destruct (gc_mark_all_spec b u I ND U fuel (map snd (min_terms b)) b2 _ M2 SM W) as [b3 [E3 M3]]. rewrite E3. cbn [rbind].
  assert (AR : ((roots ++ [true_term b]) ++ [false_term b]) ++ map snd (min_terms b) = all_roots b roots).
  { unfold all_roots. rewrite <- !app_assoc. auto. }
  rewrite AR in M3. set (A := all_roots b roots) in *.
  assert (SA : forall x, In x A -> shared b x).
  { intros x H. unfold A, all_roots in H. apply in_app_or in H. destruct H as [H|[<-|[<-|H]]]; auto. }
  pose proof (marks_exact b A b3 I SA M3) as EXA. destruct M3 as [F3 [C3 [D3 B3]]].
  assert (ST3 : forall k x, st b3 k x <-> st b k x) by (intros k x; unfold st; rewrite (f_store b b3 F3); tauto).
  assert (DI : dinv b3).
  { split.
    - intros i. rewrite (f_store b b3 F3). apply (i_tok b I).
    - intros i k a H. rewrite (f_store b b3 F3) in H. apply (i_hash b I i k a H).
    - intros k a H. apply ST3 in H. destruct (i_cell b I k a H) as [c [E [K _]]]. destruct (f_some b b3 F3 a c E) as [g E']. rewrite E'. eexists. split; [reflexivity|]. exact K.
    - rewrite (f_ent b b3 F3), (f_store b b3 F3). apply (i_cnt b I). }
  destruct (sweep_spec bucket_list b3 0 DI bucket_nodup) as [b4 [n [E4 [SW En]]]]. rewrite E4. cbn [rbind].
  set (b' := mkbank (tick b4) (heap b4) (store b4) (entries b4) (varcell b4) (negb (gstate b4)) (true_term b4) (false_term b4) (min_terms b4) (insertions b4) (recovered b4 + n)).
  exists b', n. split; auto.
  assert (REC : recovered b4 = recovered b /\ (tick b <= tick b4)%nat).
  { destruct (recovered_sweep _ _ _ _ _ E4) as [-> L], (recovered_mark_all _ _ _ _ E3) as [-> L3], (recovered_fv_mark _ _ _ _ E2) as [-> L2],
      (recovered_fv_mark _ _ _ _ E1) as [-> L1], (recovered_mark_all _ _ _ _ E0) as [-> L0]. split; auto; lia. }
  destruct REC as [REC TK].
  destruct SW as [W1 W2 W3 W4 W5 [W6 [W7 W8]]].
  destruct (f_roots b b3 F3) as [T1 [T2 T3]].
  assert (GONE : forall x, (exists k, st b3 k x /\ In (hash k) bucket_list /\ unm (heap b3) (gstate b3) x = true) <-> stored b x /\ ~ reachable (heap b) A x).
  { intros x. split.
    - intros [k [H [_ Un]]]. apply ST3 in H. assert (Sx : stored b x) by (exists k; auto). split; auto. rewrite <- EXA by auto.
      intros [c [E G]]. unfold unm in Un. rewrite E in Un. apply eqb_prop in Un. contradiction.
    - intros [[k H] NR]. assert (Sx : stored b x) by (exists k; auto). exists k. rewrite ST3. split; auto. split; [apply hash_in|].
      rewrite <- EXA in NR by auto. unfold unm. destruct (d_cell b3 DI k x) as [c [E _]]; [apply ST3; auto|]. rewrite E. apply eqb_true_iff.
      destruct (Bool.bool_dec (gflag c) (gstate b3)); auto. exfalso. apply NR. exists c. auto. }
  assert (STB : forall k x, st b' k x <-> st b k x /\ reachable (heap b) A x).
  { intros k x. change (st b' k x) with (st b4 k x). rewrite W2, GONE, ST3. split.
    - intros [H N]. split; auto. assert (Sx : stored b x) by (exists k; auto). apply EXA; auto.
      destruct (d_cell b3 DI k x) as [c [E _]]; [apply ST3; auto|]. destruct (Bool.bool_dec (gflag c) (gstate b3)) as [G|G].
      + exfalso. apply N. split; auto. intros R. apply EXA in R; auto. destruct R as [c' [E' G']]. rewrite E in E'. injection E' as <-. contradiction.
      + exists c. auto.
    - intros [H R]. split; auto. intros [_ N]. contradiction. }
  assert (SB : forall x, stored b' x <-> stored b x /\ reachable (heap b) A x).
  { intros x. split.
    - intros [k H]. apply STB in H. destruct H as [H R]. split; auto. exists k. auto.
    - intros [[k H] R]. exists k. apply STB. auto. }
  assert (VB : varcell b' = varcell b) by (change (varcell b') with (varcell b4); rewrite W4; apply (f_var b b3 F3)).
  assert (SH : forall x, shared b x -> (is_var b x \/ reachable (heap b) A x) -> shared b' x).
  { intros x [S|[f S]] Q.
    - destruct Q as [[f V]|R]; [right; exists f; rewrite VB; auto|]. left. apply SB. auto.
    - right. exists f. rewrite VB. auto. }
  assert (SH' : forall x, shared b' x -> shared b x /\ (is_var b x \/ reachable (heap b) A x)).
  { intros x [S|[f S]]; [apply SB in S; split; [left; tauto|right; tauto]|]. rewrite VB in S. split; [right; exists f; auto|left; exists f; auto]. }
  assert (KEPT : forall x c, heap b x = Some c -> (is_var b x \/ reachable (heap b) A x) -> exists g, heap b' x = Some (set_gflag c g)).
  { intros x c E Q. change (heap b' x) with (heap b4 x). destruct (W3 x) as [_ H]. rewrite H.
    - apply (f_some b b3 F3 x c E).
    - rewrite GONE. intros [S N]. destruct Q as [V|R]; [|contradiction]. destruct (stored_cell b x I S) as [c1 [E1' [_ P]]].
      destruct (var_cell b x I V) as [c2 [E2' [_ P2]]]. rewrite E1' in E2'. injection E2' as <-. lia. }
  assert (KIDS : forall x y, shared b' x -> kid b x y -> shared b' y).
  { intros x y S K. destruct (SH' x S) as [Sx Q]. destruct (kid_shared b x y I Sx K) as [Sy St]. apply SH; auto. right.
    destruct Q as [V|R]; [|eapply reach_kid; eauto]. exfalso. destruct (stored_cell b x I St) as [c1 [E1' [_ P]]].
    destruct (var_cell b x I V) as [c2 [E2' [_ P2]]]. rewrite E1' in E2'. injection E2' as <-. lia. }
  assert (CLB : closed (shared b') (heap b)).
  { intros x c y S E Hy. apply (KIDS x y S). exists c. auto. }
  assert (AGB : agree (shared b') (heap b) (heap b')).
  { intros x c S E. destruct (SH' x S) as [_ Q]. destruct (KEPT x c E Q) as [g ->]. eexists. split; [reflexivity|]. reflexivity. }
  assert (I' : inv b').
  { split.
    - apply (d_tok b4 W1).
    - apply (d_hash b4 W1).
    - intros k x H. assert (S' : shared b' x) by (left; exists k; auto). pose proof H as HH. apply STB in H. destruct H as [H R].
      destruct (i_cell b I k x H) as [c [E [K [P [G [Ar [Rp [t [D Cn]]]]]]]]]. destruct (KEPT x c E (or_intror R)) as [g E'].
      exists (set_gflag c g). split; auto. split; auto. split; auto. split.
      { cbn [gflag set_gflag]. change (gstate b') with (negb (gstate b4)). rewrite W5.
        assert (Mx : marked b3 x) by (apply EXA; auto; exists k; auto). destruct Mx as [c3 [Ec Gc]].
        destruct (W3 x) as [_ Hx]. change (heap b' x) with (heap b4 x) in E'. rewrite Hx, Ec in E'.
        - injection E' as ->. cbn [gflag set_gflag] in Gc. destruct g, (gstate b3); auto; contradiction.
        - rewrite GONE. intros [_ N]. contradiction. }
      split; [intros y Hy; apply (KIDS x y S'); exists c; auto|]. split; [intros y Hy; apply (KIDS x y S'); exists c; auto|].
      exists t. split; [|exact Cn]. apply (denotes_agree (shared b') (heap b)); auto.
    - intros f a V. rewrite VB in V. destruct (i_var b I f a V) as [N [c [E Q]]]. split; auto.
      destruct (KEPT a c E) as [g E']; [left; exists f; auto|]. exists (set_gflag c g). split; auto.
    - intros a S. apply (i_pos b I). apply SH'. auto.
    - apply (fin_less (tick b) _ (heap b)); [apply (i_fin b I)|exact TK|]. intros x H. intros E. apply H. change (heap b' x) with (heap b4 x). destruct (W3 x) as [_ Hx]. rewrite Hx.
      + apply (f_none b b3 F3). auto.
      + rewrite GONE. intros [S _]. destruct (stored_cell b x I S) as [c [Ec _]]. congruence.
    - apply (d_cnt b4 W1). }
  unfold gc_result. fold A.
  assert (TT : true_term b' = true_term b) by (change (true_term b') with (true_term b4); congruence).
  assert (FF : false_term b' = false_term b) by (change (false_term b') with (false_term b4); congruence).
  assert (MM : min_terms b' = min_terms b) by (change (min_terms b') with (min_terms b4); congruence).
  assert (RA : forall x, In x A -> shared b' x) by (intros x H; apply SH; auto; right; apply reach_root; auto).
  assert (NONE : forall x, heap b x = None -> heap b' x = None).
  { intros x E. change (heap b' x) with (heap b4 x). destruct (W3 x) as [_ Hx]. rewrite Hx.
    - apply (f_none b b3 F3). auto.
    - rewrite GONE. intros [S _]. destruct (stored_cell b x I S) as [c [Ec _]]. congruence. }
  split.
  - split; auto.
    + rewrite TT, FF, MM. unfold A, all_roots in RA. split; [apply RA; apply in_or_app; right; cbn; auto|].
      split; [apply RA; apply in_or_app; right; cbn; auto|]. intros ty a H. apply RA. apply in_or_app. right. right. right. apply in_map_iff. exists (ty, a). auto.
    + intros x H. destruct (heap b x) as [c|] eqn:E; [|exfalso; apply H; auto]. assert (Sx : shared b x) by (apply LK; congruence).
      destruct Sx as [S|V]; [|apply SH; [right; auto|left; auto]]. apply SH; [left; auto|]. right.
      apply EXA; auto. destruct S as [k S]. destruct (d_cell b3 DI k x) as [c3 [E3' _]]; [apply ST3; auto|].
      destruct (Bool.bool_dec (gflag c3) (gstate b3)) as [G|G]; [|exists c3; auto]. exfalso. apply H.
      change (heap b' x) with (heap b4 x). apply W3. exists k. rewrite ST3. split; auto. split; [apply hash_in|]. unfold unm. rewrite E3', G. apply eqb_reflx.
  - split; auto. split; auto. split.
    + intros x c E Q. destruct (KEPT x c E Q) as [g E']. eexists. split; [exact E'|]. unfold same_cell. reflexivity.
    + split; [intros x S N; change (heap b' x) with (heap b4 x); apply W3, GONE; auto|]. split; auto.
      split; [change (entries b') with (entries b4); rewrite En, (f_ent b b3 F3); lia|].
      split; [cbn [recovered b']; congruence|]. auto.
Qed.

Lemma gc_collect_ok fuel roots b b' n : pinv b -> (forall x, In x roots -> shared b x) -> gc_collect fuel roots b = Ok (b', n) -> gc_result b roots b' n.
Proof.
  intros P S E. destruct (gc_collect_spec b roots P S) as [need H]. destruct (H (Nat.max need fuel) ltac:(lia)) as [b1 [n1 [E1 R]]].
  assert (MONO : forall f f' b s b', (f <= f')%nat -> gc_mark f b s = Ok b' -> gc_mark f' b s = Ok b').
  { clear. induction f as [|f IH]; intros [|f'] b [|a s] b' L; cbn [gc_mark]; try lia; auto; try discriminate.
    destruct (heap b a) as [c|]; auto. destruct (Bool.eqb (gflag c) (gstate b)); apply IH; lia. }
  assert (MALL : forall f f' r b b', (f <= f')%nat -> gc_mark_all f b r = Ok b' -> gc_mark_all f' b r = Ok b').
  { intros f f' r. induction r as [|x r IH]; intros b0 b2 L; cbn [gc_mark_all]; auto.
    destruct (gc_mark f b0 [x]) as [b3| |] eqn:G; cbn [rbind]; try discriminate. rewrite (MONO f f' _ _ _ L G). cbn [rbind]. apply IH; auto. }
  assert (L : (fuel <= Nat.max need fuel)%nat) by lia.
  enough (gc_collect (Nat.max need fuel) roots b = Ok (b', n)) as X by (rewrite X in E1; injection E1 as -> ->; auto).
  revert E. unfold gc_collect, gc_sweep.
  destruct (gc_mark_all fuel b roots) as [b2| |] eqn:G1; cbn [rbind]; try discriminate. rewrite (MALL _ _ _ _ _ L G1). cbn [rbind].
  destruct (gc_mark fuel b2 [true_term b2]) as [b3| |] eqn:G2; cbn [rbind]; try discriminate. rewrite (MONO _ _ _ _ _ L G2). cbn [rbind].
  destruct (gc_mark fuel b3 [false_term b3]) as [b4| |] eqn:G3; cbn [rbind]; try discriminate. rewrite (MONO _ _ _ _ _ L G3). cbn [rbind].
  destruct (gc_mark_all fuel b4 (map snd (min_terms b4))) as [b5| |] eqn:G4; cbn [rbind]; try discriminate. rewrite (MALL _ _ _ _ _ L G4). cbn [rbind]. auto.
Qed.

Lemma program_pinv alloc b : fair_alloc alloc -> program_state alloc b -> pinv b.
Proof.
  intros FA H. induction H as [b E|b b' _ IH U|n roots b b' k _ IH S E].
  - destruct (tb_alloc_spec alloc FA) as [b0 [E0 [P _]]]. congruence.
  - apply (use_pinv alloc FA b b' IH U).
  - apply (gc_collect_ok n roots b b' k IH S E).
Qed.
Lemma keeping_keeps alloc a b b' : fair_alloc alloc -> pinv b -> shared b a -> keeping alloc a b b' ->
  pinv b' /\ shared b' a /\ forall t, denotes (heap b) a t -> denotes (heap b') a t.
Proof.
  intros FA P S H. induction H as [b|b b' b'' _ IH U|n roots b b' b'' k _ IH SR R E]; auto.
  - destruct (IH P S) as [P1 [S1 D1]]. destruct (use_pinv alloc FA b' b'' P1 U) as [P2 [S2 D2]]. split; auto.
  - destruct (IH P S) as [P1 [S1 D1]]. pose proof (gc_collect_ok n roots b' b'' k P1 SR E) as [P2 [SB [VB [KEPT _]]]].
    assert (Q : forall x, shared b' x -> reachable (heap b') (all_roots b' roots) x -> shared b'' x).
    { intros x [Sx|[f Sx]] Rx; [left; apply SB; auto|right; exists f; rewrite VB; auto]. }
    split; auto. split; auto. intros t D. specialize (D1 t D).
    apply (denotes_agree (fun x => shared b' x /\ reachable (heap b') (all_roots b' roots) x) (heap b')); auto.
    + intros x c y [Sx Rx] Ex Hy. split; [exact (inv_closed b' (p_inv b' P1) x c y Sx Ex Hy)|]. eapply reach_arg; eauto.
    + intros x c [Sx Rx] Ex. destruct (KEPT x c Ex (or_intror Rx)) as [c' [E' SC]]. exists c'. split; auto. rewrite SC. reflexivity.
Qed.
