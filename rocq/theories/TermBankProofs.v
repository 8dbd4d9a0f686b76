(** Invariant of the shared term store and its preservation by the operations that add cells. *)
From Coq Require Import Permutation.
From Verif Require Import Terms Splay SplayProofs SplayProps TermBank.
Local Open Scope Z_scope.

Lemma KO : key_order key top_cmp (fun _ => True).
Proof. exact C26_term_cell_keys. Qed.
Notation look := (find_binary key Z top_cmp).
Notation inordk := (@inord key Z).
Notation tok := (@bst key Z top_cmp (fun _ => True)).

Lemma key_dec (x y : key) : {x = y} + {x <> y}.
Proof. repeat decide equality. Qed.
Lemma top_eq x y : top_cmp x y = Eq <-> x = y.
Proof. apply (ko_eq _ _ _ KO); auto. Qed.

(** *** trees *)
Lemma look_assoc (t : ktree) k : tok t -> look t k = assoc top_cmp (inordk t) k.
Proof. intros H. apply (find_binary_spec top_cmp (fun _ => True) KO); auto. Qed.
Lemma look_key (t : ktree) k k' a : look t k = Some (k', a) -> k' = k.
Proof.
  induction t as [|l IHl x v r IHr]; cbn [find_binary]; [discriminate|].
  destruct (top_cmp k x) eqn:E; auto. intros [= <- <-]. apply top_eq in E. auto.
Qed.
Lemma look_in (t : ktree) k a : tok t -> look t k = Some (k, a) <-> In (k, a) (inordk t).
Proof.
  intros H. rewrite look_assoc by auto. split.
  - intros E. apply (assoc_in top_cmp (fun _ => True) KO _ _ _ (fun e _ => I) I) in E. tauto.
  - intros E. exact (in_assoc top_cmp (fun _ => True) KO _ (k, a) (proj1 H) (fun e _ => I) E).
Qed.
Lemma tok_rel (t : ktree) : tok t -> rel top_cmp (fun _ => True) t (look t).
Proof. intros H. split; auto. intros x _. symmetry. apply look_assoc; auto. Qed.
Lemma rel_look (t : ktree) m : rel top_cmp (fun _ => True) t m -> tok t /\ forall x, look t x = m x.
Proof. intros [H A]. split; auto. intros x. rewrite look_assoc by auto. apply A; auto. Qed.

Lemma insert_look (t : ktree) k a : tok t ->
  let (o, t') := insert key Z top_cmp t k a in
  o = look t k /\ tok t' /\
  forall x, look t' x = if key_dec x k then match look t k with None => Some (k, a) | s => s end else look t x.
Proof.
  intros H. pose proof (@insert_rel key Z top_cmp (fun _ => True) KO t (look t) k a I (tok_rel t H)) as R.
  destruct (insert key Z top_cmp t k a) as [o t']. destruct R as [-> R]. apply rel_look in R. destruct R as [T L]. split; auto. split; auto.
  intros x. rewrite L. destruct (look t k) as [e|] eqn:E.
  - destruct (key_dec x k) as [->|]; auto.
  - unfold fadd. destruct (key_dec x k) as [->|N].
    + rewrite (proj2 (top_eq k k) eq_refl). auto.
    + destruct (top_cmp x k) eqn:X; auto. apply top_eq in X. contradiction.
Qed.
Lemma find_look (t : ktree) k : tok t ->
  let (o, t') := find key Z top_cmp t k in o = look t k /\ tok t' /\ forall x, look t' x = look t x.
Proof.
  intros H. pose proof (@find_rel key Z top_cmp (fun _ => True) KO t (look t) k I (tok_rel t H)) as R.
  destruct (find key Z top_cmp t k) as [o t']. destruct R as [-> R]. apply rel_look in R. tauto.
Qed.
Lemma extract_look (t : ktree) k : tok t ->
  let (o, t') := extract key Z top_cmp t k in
  o = look t k /\ tok t' /\ forall x, look t' x = if key_dec x k then None else look t x.
Proof.
  intros H. pose proof (@extract_rel key Z top_cmp (fun _ => True) KO t (look t) k I (tok_rel t H)) as R.
  destruct (extract key Z top_cmp t k) as [o t']. destruct R as [-> R]. apply rel_look in R. destruct R as [T L]. split; auto. split; auto.
  intros x. rewrite L. unfold fdel. destruct (key_dec x k) as [->|N].
  - rewrite (proj2 (top_eq k k) eq_refl). auto.
  - destruct (top_cmp x k) eqn:X; auto. apply top_eq in X. contradiction.
Qed.

Lemma tok_nodup (t : ktree) : tok t -> NoDup (inordk t).
Proof.
  intros [H _]. revert H. generalize (inordk t). induction l as [|e l IH]; simpl; [constructor|].
  intros [A B]. constructor; auto. intros C. specialize (A e C). unfold lt in A.
  rewrite (proj2 (top_eq (fst e) (fst e)) eq_refl) in A. discriminate.
Qed.
Definition tlen (t : ktree) : Z := Z.of_nat (length (inordk t)).
Lemma tlen_perm (t t' : ktree) : tok t -> tok t' -> (forall x, look t' x = look t x) -> tlen t' = tlen t.
Proof.
  intros H H' E. unfold tlen. f_equal. apply Permutation_length. apply NoDup_Permutation; auto using tok_nodup.
  intros [k a]. rewrite <- !look_in by auto. rewrite E. tauto.
Qed.
Lemma tlen_add (t t' : ktree) k a : tok t -> tok t' -> look t k = None ->
  (forall x, look t' x = if key_dec x k then Some (k, a) else look t x) -> tlen t' = tlen t + 1.
Proof.
  intros H H' N E. unfold tlen.
  assert (P : Permutation (inordk t') ((k, a) :: inordk t)).
  { apply NoDup_Permutation; [apply tok_nodup; auto| |].
    - constructor; [|apply tok_nodup; auto]. rewrite <- look_in by auto. congruence.
    - intros [k' a']. rewrite <- look_in by auto. rewrite E. cbn [In]. rewrite <- look_in by auto.
      destruct (key_dec k' k) as [->|X].
      + split; [intros [= ->]; auto|]. intros [[= ->]|Y]; congruence.
      + split; [auto|]. intros [[= -> ->]|Y]; congruence. }
  rewrite (Permutation_length P). cbn [length]. lia.
Qed.
Lemma tlen_del (t t' : ktree) k a : tok t -> tok t' -> look t k = Some (k, a) ->
  (forall x, look t' x = if key_dec x k then None else look t x) -> tlen t' = tlen t - 1.
Proof.
  intros H H' L E. assert (X : tlen t = tlen t' + 1); [|lia].
  apply (tlen_add t' t k a); auto.
  - rewrite E. destruct (key_dec k k); congruence.
  - intros x. rewrite E. destruct (key_dec x k) as [->|]; auto.
Qed.

(** *** buckets *)
Lemma land_range z : 0 <= Z.land z 32767 < 32768.
Proof. change 32767 with (Z.ones 15). rewrite Z.land_ones by lia. apply Z.mod_pos_bound. reflexivity. Qed.
Lemma hash_range k : 0 <= hash k < 32768.
Proof. apply land_range. Qed.
Lemma in_upto n : forall x i, In i (upto x n) <-> x <= i < x + Z.of_nat n.
Proof.
  induction n as [|n IH]; intros x i; cbn [upto In]; [lia|]. rewrite IH. lia.
Qed.
Lemma in_buckets i : In i bucket_list <-> 0 <= i < 32768.
Proof. unfold bucket_list. rewrite in_upto, Z2Nat.id by lia. lia. Qed.
Lemma bucket_nodup : NoDup bucket_list.
Proof.
  unfold bucket_list. generalize (Z.to_nat 32768) as n, 0 as x. induction n as [|n IH]; intros x; cbn [upto]; constructor; auto.
  rewrite in_upto. lia.
Qed.
Lemma hash_in k : In (hash k) bucket_list.
Proof. apply in_buckets, hash_range. Qed.

Definition total (s : Z -> ktree) (l : list Z) : Z := fold_right (fun i n => tlen (s i) + n) 0 l.
Lemma total_ext s s' l : (forall i, In i l -> tlen (s' i) = tlen (s i)) -> total s' l = total s l.
Proof.
  induction l as [|i l IH]; intros H; auto. cbn [total fold_right]. fold (total s' l). fold (total s l).
  rewrite IH by (intros j Hj; apply H; right; exact Hj). rewrite (H i (or_introl eq_refl)). auto.
Qed.
Lemma total_upd s i t l : NoDup l -> In i l -> total (upd s i t) l = total s l - tlen (s i) + tlen t.
Proof.
  induction l as [|j l IH]; intros N H; [destruct H|]. apply NoDup_cons_iff in N. destruct N as [N1 N2].
  cbn [total fold_right]. fold (total (upd s i t) l). fold (total s l). unfold upd at 1.
  destruct (Z.eqb_spec j i) as [->|D].
  - rewrite (total_ext s (upd s i t) l); [lia|]. intros j Hj. unfold upd. destruct (Z.eqb_spec j i); [congruence|auto].
  - destruct H as [->|H]; [congruence|]. rewrite IH by auto. lia.
Qed.

(** *** cells and terms *)
Fixpoint den_list (h : Z -> option cell) (ts : list term) (xs : list Z) {struct ts} : Prop :=
  match ts, xs with
  | [], [] => True
  | t :: ts', x :: xs' => denotes h x t /\ den_list h ts' xs'
  | _, _ => False
  end.
Lemma denotes_fun h a f ts : denotes h a (Fun f ts) <-> exists c, h a = Some c /\ fcode c = scode f /\ den_list h ts (cargs c).
Proof.
  cbn [denotes]. assert (E : forall xs, (fix all (ts : list term) (xs : list Z) {struct ts} : Prop :=
           match ts, xs with [], [] => True | t :: ts', x :: xs' => denotes h x t /\ all ts' xs' | _, _ => False end) ts xs <-> den_list h ts xs).
  { induction ts as [|t ts IH]; intros [|x xs]; cbn; try tauto. rewrite IH. tauto. }
  split; intros [c [A [B C]]]; exists c; split; auto; split; auto; apply E; auto.
Qed.
Lemma scode_pos f : 0 < scode f. Proof. unfold scode. lia. Qed.
Lemma vcode_neg x : vcode x < 0. Proof. unfold vcode. lia. Qed.
Lemma scode_inj f g : scode f = scode g -> f = g. Proof. unfold scode. lia. Qed.
Lemma vcode_inj x y : vcode x = vcode y -> x = y. Proof. unfold vcode. lia. Qed.
Lemma vcode_of f : f < 0 -> exists x, f = vcode x.
Proof. intros H. exists (Z.to_nat (- f - 1)). unfold vcode. lia. Qed.
Lemma scode_of f : 0 < f -> exists x, f = scode x.
Proof. intros H. exists (Z.to_nat (f - 1)). unfold scode. lia. Qed.

Lemma denotes_det h : forall t a u, denotes h a t -> denotes h a u -> t = u.
Proof.
  induction t as [x|f ts IH] using term_ind'; intros a [y|g us] H1 H2.
  - destruct H1 as [c [E1 F1]], H2 as [c' [E2 F2]]. f_equal. apply vcode_inj. congruence.
  - destruct H1 as [c [E1 F1]]. apply denotes_fun in H2. destruct H2 as [c' [E2 [F2 _]]].
    pose proof (scode_pos g). pose proof (vcode_neg x). rewrite E1 in E2. injection E2 as <-. lia.
  - destruct H2 as [c [E1 F1]]. apply denotes_fun in H1. destruct H1 as [c' [E2 [F2 _]]].
    pose proof (scode_pos f). pose proof (vcode_neg y). rewrite E1 in E2. injection E2 as <-. lia.
  - apply denotes_fun in H1, H2. destruct H1 as [c [E1 [F1 D1]]], H2 as [c' [E2 [F2 D2]]]. rewrite E1 in E2. injection E2 as <-.
    assert (f = g) as -> by (apply scode_inj; congruence). f_equal.
    revert us D1 D2. generalize (cargs c) as xs. induction IH as [|t ts Ht _ IHts]; intros [|x xs] [|u us]; cbn; try tauto.
    intros [A1 B1] [A2 B2]. f_equal; [eapply Ht; eauto|eapply IHts; eauto].
Qed.

Definition agree (P : Z -> Prop) (h h' : Z -> option cell) : Prop :=
  forall x c, P x -> h x = Some c -> exists c', h' x = Some c' /\ ckey c' = ckey c.
Definition closed (P : Z -> Prop) (h : Z -> option cell) : Prop :=
  forall x c y, P x -> h x = Some c -> In y (cargs c) -> P y.
Lemma denotes_agree (P : Z -> Prop) h h' : closed P h -> agree P h h' -> forall t a, P a -> denotes h a t -> denotes h' a t.
Proof.
  intros C A. induction t as [x|f ts IH] using term_ind'; intros a Pa H.
  - destruct H as [c [E F]]. destruct (A a c Pa E) as [c' [E' K]]. exists c'. split; auto. unfold ckey in K. injection K as K _. congruence.
  - apply denotes_fun in H. destruct H as [c [E [F D]]]. destruct (A a c Pa E) as [c' [E' K]]. apply denotes_fun. exists c'. split; auto.
    unfold ckey in K. injection K as K1 K2. split; [congruence|]. rewrite K2.
    assert (Q : forall y, In y (cargs c) -> P y) by (intros y Hy; exact (C a c y Pa E Hy)).
    revert D Q. clear - IH. generalize (cargs c) as xs. induction IH as [|t ts Ht _ IHts]; intros [|x xs]; cbn; try tauto.
    intros [A B] Q. split; auto.
Qed.
Lemma denotes_mono h h' : (forall x c, h x = Some c -> h' x = Some c) -> forall t a, denotes h a t -> denotes h' a t.
Proof.
  intros M t a. apply (denotes_agree (fun _ => True)); auto.
  - intros x c y _ _ _. auto.
  - intros x c _ E. exists c. auto.
Qed.
Lemma den_list_length h ts xs : den_list h ts xs -> length xs = length ts.
Proof. revert xs. induction ts as [|t ts IH]; intros [|x xs]; cbn; try tauto. intros [_ D]. f_equal. auto. Qed.
Lemma den_list_mono h h' : (forall x c, h x = Some c -> h' x = Some c) -> forall ts xs, den_list h ts xs -> den_list h' ts xs.
Proof.
  intros M. induction ts as [|t ts IH]; intros [|x xs]; cbn; try tauto. intros [A B]. split; auto. eapply denotes_mono; eauto.
Qed.
Lemma den_list_agree (P : Z -> Prop) h h' : closed P h -> agree P h h' -> forall ts xs, (forall x, In x xs -> P x) -> den_list h ts xs -> den_list h' ts xs.
Proof.
  intros C A. induction ts as [|t ts IH]; intros [|x xs] Q; cbn; try tauto. intros [D1 D2]. split.
  - apply (denotes_agree P h h'); auto. apply Q. cbn; auto.
  - apply IH; auto. intros y Hy. apply Q. cbn; auto.
Qed.

(** *** the invariant *)
Definition st (b : bank) (k : key) (a : Z) : Prop := look (store b (hash k)) k = Some (k, a).
Lemma stored_st b a : stored b a <-> exists k, st b k a.
Proof. reflexivity. Qed.

Definition counted (c : cell) (t : term) : Prop :=
  weight c = stdweight t /\ v_count c = wrap32 (nvars t) /\ f_count c = wrap32 (nsyms t) /\ ground c = (v_count c =? 0).

(** at most [n] cells are allocated *)
Definition fin (n : nat) (h : Z -> option cell) : Prop := exists used, (length used <= n)%nat /\ forall x, h x <> None -> In x used.
Record inv (b : bank) : Prop := {
  i_tok : forall i, tok (store b i);
  i_hash : forall i k a, look (store b i) k = Some (k, a) -> i = hash k;
  i_cell : forall k a, st b k a -> exists c, heap b a = Some c /\ ckey c = k /\ 0 < fcode c /\ gflag c = gstate b /\
             (forall x, In x (cargs c) -> shared b x) /\ (forall r, replace c = Some r -> shared b r) /\
             exists t, denotes (heap b) a t /\ counted c t;
  i_var : forall f a, varcell b f = Some a -> f < 0 /\ exists c, heap b a = Some c /\ fcode c = f /\ cargs c = [] /\ replace c = None /\
             ground c = false /\ weight c = 1 /\ v_count c = 1 /\ f_count c = 0;
  i_pos : forall a, shared b a -> 0 < a;
  i_fin : fin (tick b) (heap b);
  i_cnt : entries b = total (store b) bucket_list
}.

Lemma inv_shared_cell b a : inv b -> shared b a -> exists c, heap b a = Some c.
Proof.
  intros I [[k H]|[f H]].
  - destruct (i_cell b I k a H) as [c [E _]]. eauto.
  - destruct (i_var b I f a H) as [_ [c [E _]]]. eauto.
Qed.
Lemma inv_closed b : inv b -> closed (shared b) (heap b).
Proof.
  intros I x c y [[k H]|[f H]] E Hy.
  - destruct (i_cell b I k x H) as [c' [E' [_ [_ [_ [A _]]]]]]. rewrite E in E'. injection E' as <-. auto.
  - destruct (i_var b I f x H) as [_ [c' [E' [_ [A _]]]]]. rewrite E in E'. injection E' as <-. rewrite A in Hy. destruct Hy.
Qed.
Lemma inv_denotes b a : inv b -> shared b a -> exists t, denotes (heap b) a t.
Proof.
  intros I [[k H]|[f H]].
  - destruct (i_cell b I k a H) as [c [_ [_ [_ [_ [_ [_ [t [D _]]]]]]]]]. eauto.
  - destruct (i_var b I f a H) as [N [c [E [F _]]]]. destruct (vcode_of f N) as [x ->]. exists (Var x), c. auto.
Qed.
Lemma stored_cell b a : inv b -> stored b a -> exists c, heap b a = Some c /\ st b (ckey c) a /\ 0 < fcode c.
Proof. intros I [k H]. destruct (i_cell b I k a H) as [c [E [K [P _]]]]. exists c. rewrite K. auto. Qed.
Lemma var_cell b a : inv b -> is_var b a -> exists c, heap b a = Some c /\ varcell b (fcode c) = Some a /\ fcode c < 0.
Proof. intros I [f H]. destruct (i_var b I f a H) as [N [c [E [F _]]]]. exists c. rewrite F. auto. Qed.
Lemma inv_counts b a t : inv b -> shared b a -> denotes (heap b) a t -> exists c, heap b a = Some c /\ counted c t.
Proof.
  intros I [[k H]|[f H]] D.
  - destruct (i_cell b I k a H) as [c [E [_ [_ [_ [_ [_ [u [Du C]]]]]]]]]. exists c. split; auto.
    rewrite (denotes_det _ _ _ _ D Du). auto.
  - destruct (i_var b I f a H) as [N [c [E [F [_ [_ [G [W [V Fc]]]]]]]]]. exists c. split; auto.
    destruct t as [x|g ts].
    + unfold counted. rewrite W, V, Fc, G. cbn. auto.
    + apply denotes_fun in D. destruct D as [c' [E' [F' _]]]. pose proof (scode_pos g). rewrite E in E'. injection E' as <-. lia.
Qed.

(** sharing is canonical *)
Lemma canon b : inv b -> forall t a a', shared b a -> shared b a' -> denotes (heap b) a t -> denotes (heap b) a' t -> a = a'.
Proof.
  intros I. induction t as [x|f ts IH] using term_ind'; intros a a' S1 S2 D1 D2.
  - assert (H : forall a, shared b a -> denotes (heap b) a (Var x) -> varcell b (vcode x) = Some a).
    { clear - I. intros a S [c [E F]]. destruct S as [S|S].
      - destruct (stored_cell b a I S) as [c' [E' [_ P]]]. pose proof (vcode_neg x). rewrite E in E'. injection E' as <-. lia.
      - destruct (var_cell b a I S) as [c' [E' [V _]]]. rewrite E in E'. injection E' as <-. congruence. }
    pose proof (H a S1 D1). pose proof (H a' S2 D2). congruence.
  - apply denotes_fun in D1, D2. destruct D1 as [c [E [F D]]], D2 as [c' [E' [F' D']]].
    assert (X : forall a c, shared b a -> heap b a = Some c -> fcode c = scode f -> st b (ckey c) a).
    { clear - I. intros a c S E F. destruct S as [S|S].
      - destruct (stored_cell b a I S) as [c' [E' [K _]]]. rewrite E in E'. injection E' as <-. auto.
      - destruct (var_cell b a I S) as [c' [E' [_ V]]]. pose proof (scode_pos f). rewrite E in E'. injection E' as <-. lia. }
    pose proof (X a c S1 E F) as K. pose proof (X a' c' S2 E' F') as K'.
    assert (Q : forall y, In y (cargs c) -> shared b y) by (intros y Hy; exact (inv_closed b I a c y S1 E Hy)).
    assert (Q' : forall y, In y (cargs c') -> shared b y) by (intros y Hy; exact (inv_closed b I a' c' y S2 E' Hy)).
    assert (A : cargs c = cargs c').
    { revert D D' Q Q'. clear - IH I. generalize (cargs c) as xs, (cargs c') as ys.
      induction IH as [|t ts Ht _ IHts]; intros [|x xs] [|y ys]; cbn; try tauto. intros [A B] [A' B'] Q Q'. f_equal; auto. }
    assert (ckey c = ckey c') as KK by (unfold ckey; congruence).
    unfold st in *. rewrite KK in K. rewrite K in K'. injection K'. auto.
Qed.

(** changing the memory outside the shared cells, or restructuring the trees *)
Lemma inv_frame b b' : inv b ->
  (forall i, tok (store b' i)) -> (forall i k, look (store b' i) k = look (store b i) k) -> entries b' = entries b ->
  (forall f, varcell b' f = varcell b f) -> gstate b' = gstate b ->
  (forall x, shared b x -> heap b' x = heap b x) -> fin (tick b') (heap b') ->
  inv b' /\ (forall x, stored b' x <-> stored b x) /\ (forall x, is_var b' x <-> is_var b x).
Proof.
  intros I T L En V G H Fin.
  assert (ST : forall k a, st b' k a <-> st b k a) by (intros k a; unfold st; rewrite L; tauto).
  assert (SS : forall x, stored b' x <-> stored b x) by (intros x; split; intros [k Hk]; exists k; apply ST; auto).
  assert (SV : forall x, is_var b' x <-> is_var b x) by (intros x; split; intros [k Hk]; exists k; congruence).
  assert (SH : forall x, shared b' x <-> shared b x) by (intros x; unfold shared; rewrite SS, SV; tauto).
  split; [|auto]. split; auto.
  - intros i k a E. rewrite L in E. apply (i_hash b I i k a E).
  - intros k a E. apply ST in E. destruct (i_cell b I k a E) as [c [Ec [K [P [Gc [A [R [t [D C]]]]]]]]].
    assert (Sa : shared b a) by (left; exists k; auto).
    exists c. rewrite H by auto. split; auto. split; auto. split; auto. split; [congruence|].
    split; [intros x Hx; apply SH; auto|]. split; [intros x Hx; apply SH; auto|]. exists t. split; auto.
    apply (denotes_agree (shared b) (heap b)); auto using inv_closed. intros x c' Sx Ex. exists c'. rewrite H; auto.
  - intros f a E. rewrite V in E. destruct (i_var b I f a E) as [N [c [Ec R]]]. split; auto. exists c. split; auto.
    rewrite H; auto. right. exists f. auto.
  - intros a Sa. apply (i_pos b I). apply SH. auto.
  - rewrite En, (i_cnt b I). symmetry. apply total_ext. intros i _. apply tlen_perm; auto. apply (i_tok b I).
Qed.

(** [ext b b'] : nothing was lost *)
Record ext (b b' : bank) : Prop := {
  e_heap : forall x c, heap b x = Some c -> heap b' x = Some c;
  e_stored : forall x, stored b x -> stored b' x;
  e_var : forall f a, varcell b f = Some a -> varcell b' f = Some a;
  e_leak : forall x, heap b' x <> None -> heap b x <> None \/ shared b' x;
  e_gst : gstate b' = gstate b;
  e_roots : true_term b' = true_term b /\ false_term b' = false_term b /\ min_terms b' = min_terms b
}.
Lemma ext_shared b b' x : ext b b' -> shared b x -> shared b' x.
Proof. intros E [H|[f H]]; [left; apply (e_stored b b' E); auto|right; exists f; apply (e_var b b' E); auto]. Qed.
Lemma ext_refl b : ext b b.
Proof. split; auto. Qed.
Lemma ext_trans b1 b2 b3 : ext b1 b2 -> ext b2 b3 -> ext b1 b3.
Proof.
  intros A B. split.
  - intros x c H. apply (e_heap b2 b3 B), (e_heap b1 b2 A). auto.
  - intros x H. apply (e_stored b2 b3 B), (e_stored b1 b2 A). auto.
  - intros f a H. apply (e_var b2 b3 B), (e_var b1 b2 A). auto.
  - intros x H. destruct (e_leak b2 b3 B x H) as [H'|H']; auto. destruct (e_leak b1 b2 A x H'); auto. right. eapply ext_shared; eauto.
  - rewrite (e_gst b2 b3 B). apply (e_gst b1 b2 A).
  - destruct (e_roots b1 b2 A) as [A1 [A2 A3]], (e_roots b2 b3 B) as [B1 [B2 B3]]. split; [congruence|]. split; congruence.
Qed.
Lemma ext_denotes b b' a t : ext b b' -> denotes (heap b) a t -> denotes (heap b') a t.
Proof. intros E. apply denotes_mono. apply (e_heap b b' E). Qed.

Lemma upd_same {A} (h : Z -> A) a v : upd h a v a = v.
Proof. unfold upd. rewrite Z.eqb_refl. auto. Qed.
Lemma upd_other {A} (h : Z -> A) a v x : x <> a -> upd h a v x = h x.
Proof. intros N. unfold upd. destruct (Z.eqb_spec x a); [contradiction|auto]. Qed.
Lemma fin_new n h a v : fin n h -> fin (S n) (upd h a v).
Proof.
  intros [u [L H]]. exists (a :: u). split; [cbn; lia|]. intros x Hx. destruct (Z.eq_dec x a) as [->|N]; [left; auto|]. right. rewrite upd_other in Hx by auto. auto.
Qed.
Lemma fin_less n m h h' : fin n h -> (n <= m)%nat -> (forall x, h' x <> None -> h x <> None) -> fin m h'.
Proof. intros [u [L H]] Le Hh. exists u. split; [lia|]. auto. Qed.
Lemma fin_write n h a v : fin n h -> h a <> None -> fin n (upd h a v).
Proof.
  intros F N. apply (fin_less n n h); auto. intros x. destruct (Z.eq_dec x a) as [->|D]; auto. rewrite upd_other by auto. auto.
Qed.

Section Ops.
  Variable alloc : nat -> (Z -> option cell) -> Z.
  Hypothesis FA : fair_alloc alloc.

  (** a fresh, unshared cell *)
  Lemma new_cell_spec b c : inv b -> let '(b', a) := new_cell alloc b c in
    inv b' /\ heap b a = None /\ 0 < a /\ heap b' = upd (heap b) a (Some c) /\ ~ shared b' a /\
    (forall x, stored b' x <-> stored b x) /\ (forall x, is_var b' x <-> is_var b x) /\
    varcell b' = varcell b /\ store b' = store b /\ gstate b' = gstate b /\ entries b' = entries b /\
    true_term b' = true_term b /\ false_term b' = false_term b /\ min_terms b' = min_terms b.
  Proof.
    intros I. unfold new_cell. set (a := alloc (tick b) (heap b)). destruct (i_fin b I) as [u [Lu Hu]].
    destruct (FA (tick b) (heap b) u Lu Hu) as [N P]. fold a in N, P.
    assert (NS : ~ shared b a) by (intros S; destruct (inv_shared_cell b a I S); congruence).
    destruct (inv_frame b (set_mem b (S (tick b)) (upd (heap b) a (Some c))) I) as [I' [SS SV]]; try reflexivity.
    - apply (i_tok b I).
    - intros x Sx. cbn [heap set_mem]. apply upd_other. congruence.
    - cbn [heap set_mem tick]. apply fin_new, (i_fin b I).
    - split; auto. split; auto. split; auto. split; [reflexivity|]. split.
      + intros S. apply NS. destruct S as [S|S]; [left; apply SS; auto|right; apply SV; auto].
      + repeat split; try reflexivity; apply SS || apply SV.
  Qed.

  (** *** variables *)
  Lemma var_assert_alloc_spec b f : inv b -> f < 0 -> exists b' a, var_assert_alloc alloc b f = Ok (b', a) /\
    inv b' /\ ext b b' /\ varcell b' f = Some a /\ (forall x, stored b' x -> stored b x).
  Proof.
    intros I N. unfold var_assert_alloc. rewrite (proj2 (Z.ltb_lt f 0) N). destruct (varcell b f) as [a|] eqn:V.
    - exists b, a. split; auto. split; auto using ext_refl.
    - pose proof (new_cell_spec b (mkcell f [] false false None DEFAULT_VWEIGHT 1 0) I) as H.
      destruct (new_cell alloc b (mkcell f [] false false None DEFAULT_VWEIGHT 1 0)) as [b1 a].
      destruct H as [I1 [Na [Pa [Hh [NS [SS [SV [Ev [Es [Eg [En [R1 [R2 R3]]]]]]]]]]]]].
      exists (set_var b1 f a), a. split; auto.
      assert (VN : forall f' a', varcell b1 f' = Some a' -> f' <> f) by (intros f' a' H; rewrite Ev in H; congruence).
      assert (SH : forall x, shared (set_var b1 f a) x <-> shared b1 x \/ x = a).
      { intros x. unfold shared. split.
        - intros [H|[f' H]]; [left; left; exact H|]. cbn [varcell set_var] in H. destruct (Z.eq_dec f' f) as [->|D].
          + rewrite upd_same in H. injection H. auto.
          + rewrite upd_other in H by auto. left. right. exists f'. auto.
        - intros [[H|[f' H]]| ->]; [left; exact H| |].
          + right. exists f'. cbn [varcell set_var]. rewrite upd_other by eauto. auto.
          + right. exists f. cbn [varcell set_var]. apply upd_same. }
      split; [|split; [|split]].
      + split.
        * apply (i_tok b1 I1).
        * apply (i_hash b1 I1).
        * intros k a' H. destruct (i_cell b1 I1 k a' H) as [c [Ec [K [P [Gc [A [R D]]]]]]]. exists c. split; auto. split; auto. split; auto.
          split; auto. split; [intros x Hx; apply SH; auto|]. split; [intros x Hx; apply SH; auto|]. auto.
        * intros f' a' H. cbn [varcell set_var] in H. destruct (Z.eq_dec f' f) as [->|D].
          -- rewrite upd_same in H. injection H as <-. split; auto. eexists. cbn [heap set_var]. rewrite Hh, upd_same. split; [reflexivity|]. repeat split.
          -- rewrite upd_other in H by auto. apply (i_var b1 I1 f' a' H).
        * intros x Sx. apply SH in Sx. destruct Sx as [Sx| ->]; auto. apply (i_pos b1 I1); auto.
        * apply (i_fin b1 I1).
        * apply (i_cnt b1 I1).
      + split.
        * intros x c H. cbn [heap set_var]. rewrite Hh. rewrite upd_other; auto. congruence.
        * intros x H. apply SS in H. exact H.
        * intros f' a' H. cbn [varcell set_var]. rewrite upd_other by congruence. rewrite Ev. auto.
        * intros x H. cbn [heap set_var] in H. rewrite Hh in H. destruct (Z.eq_dec x a) as [->|D].
          -- right. apply SH. auto.
          -- rewrite upd_other in H by auto. auto.
        * exact Eg.
        * cbn. auto.
      + cbn [varcell set_var]. apply upd_same.
      + intros x H. apply SS. exact H.
  Qed.
  Lemma varcell_denotes b x a : inv b -> varcell b (vcode x) = Some a -> shared b a /\ denotes (heap b) a (Var x).
  Proof.
    intros I V. split; [right; eexists; eauto|]. destruct (i_var b I _ _ V) as [_ [c [E [F _]]]]. exists c. auto.
  Qed.

  (** *** the top level of an insertion *)
  Lemma wrap32_add x y : wrap32 (wrap32 x + wrap32 y) = wrap32 (x + y).
  Proof. unfold wrap32. symmetry. apply Z.add_mod. lia. Qed.
  Lemma wrap32_add_r x y : wrap32 (wrap32 x + y) = wrap32 (x + y).
  Proof. unfold wrap32. rewrite Z.add_mod_idemp_l; lia. Qed.
  Lemma sum_args_spec b : inv b -> forall ts xs w v f, (forall x, In x xs -> shared b x) -> den_list (heap b) ts xs ->
    sum_args (heap b) xs w (wrap32 v) (wrap32 f) =
      Some (w + fold_right (fun t n => stdweight t + n) 0 ts, wrap32 (v + fold_right (fun t n => nvars t + n) 0 ts),
            wrap32 (f + fold_right (fun t n => nsyms t + n) 0 ts)).
  Proof.
    intros I. induction ts as [|t ts IH]; intros [|x xs] w v f S D; cbn [den_list] in D; try tauto.
    - cbn [sum_args fold_right]. rewrite !Z.add_0_r. auto.
    - destruct D as [D1 D2]. destruct (inv_counts b x t I (S x (or_introl eq_refl)) D1) as [c [E [W [V [F G]]]]].
      cbn [sum_args fold_right]. rewrite E. destruct t as [y|g us].
      + destruct D1 as [c' [E' F']]. rewrite E in E'. injection E' as <-. rewrite F', (proj2 (Z.ltb_lt _ 0) (vcode_neg y)).
        change (wrap32 (wrap32 v + 1)) with (wrap32 (wrap32 v + wrap32 1)). rewrite wrap32_add.
        rewrite IH by (auto; intros z Hz; apply S; cbn; auto). cbn [stdweight nvars nsyms]. unfold DEFAULT_VWEIGHT. rewrite !Z.add_assoc, Z.add_0_r. auto.
      + apply denotes_fun in D1. destruct D1 as [c' [E' [F' _]]]. rewrite E in E'. injection E' as <-. rewrite F'.
        rewrite (proj2 (Z.ltb_ge _ 0)) by (pose proof (scode_pos g); lia). rewrite W, V, F, !wrap32_add.
        rewrite IH by (auto; intros z Hz; apply S; cbn; auto). rewrite !Z.add_assoc. auto.
  Qed.

  Record ext_but (a : Z) (b b' : bank) : Prop := {
    eb_heap : forall x c, x <> a -> heap b x = Some c -> heap b' x = Some c;
    eb_stored : forall x, stored b x -> stored b' x;
    eb_var : forall f a, varcell b f = Some a -> varcell b' f = Some a;
    eb_leak : forall x, heap b' x <> None -> (x <> a /\ heap b x <> None) \/ shared b' x;
    eb_gst : gstate b' = gstate b;
    eb_roots : true_term b' = true_term b /\ false_term b' = false_term b /\ min_terms b' = min_terms b
  }.

  Lemma inv_count_insert b : inv b -> inv (count_insert b).
  Proof. intros [A B C D E F G]. split; auto. Qed.

  Lemma free_other b a : inv b -> ~ shared b a -> inv (free_cell b a) /\ (forall x, stored (free_cell b a) x <-> stored b x) /\
    (forall x, is_var (free_cell b a) x <-> is_var b x).
  Proof.
    intros I NS. apply (inv_frame b); try reflexivity; auto.
    - apply (i_tok b I).
    - intros x Sx. cbn [heap free_cell set_mem]. apply upd_other. congruence.
    - cbn [heap free_cell set_mem tick]. apply fin_new, (i_fin b I).
  Qed.
  Lemma write_other b a c : inv b -> heap b a <> None -> ~ shared b a -> inv (write b a c) /\ (forall x, stored (write b a c) x <-> stored b x) /\
    (forall x, is_var (write b a c) x <-> is_var b x).
  Proof.
    intros I HA NS. apply (inv_frame b); try reflexivity; auto.
    - apply (i_tok b I).
    - intros x Sx. cbn [heap write set_mem]. apply upd_other. congruence.
    - cbn [heap write set_mem tick]. apply fin_write; auto. apply (i_fin b I).
  Qed.

  Lemma top_insert_spec b a c f ts : inv b -> heap b a = Some c -> ~ shared b a -> 0 < a -> fcode c = scode f ->
    (forall x, In x (cargs c) -> shared b x) -> replace c = None -> gflag c = false -> den_list (heap b) ts (cargs c) ->
    exists b' r, top_insert b a = Ok (b', r) /\ inv b' /\ stored b' r /\ denotes (heap b') r (Fun f ts) /\ ext_but a b b' /\
      (forall x, stored b' x -> stored b x \/ x = r) /\ (forall x, is_var b' x <-> is_var b x).
  Proof.
    intros I Ea NS Pa F Sh Rn Gf D. unfold top_insert. cbn [heap count_insert]. rewrite Ea. unfold store_insert. cbn [store count_insert].
    set (k := ckey c). set (i := hash k).
    pose proof (insert_look (store b i) k a (i_tok b I i)) as H.
    destruct (insert key Z top_cmp (store b i) k a) as [o tr]. destruct H as [Ho [Ht HL]]. destruct o as [[k' a']|].
    - (* already there *)
      symmetry in Ho. assert (k' = k) by (apply (look_key _ _ _ _ Ho)). subst k'.
      assert (S' : st b k a') by exact Ho. destruct (i_cell b I k a' S') as [c' [Ec [K [P [Gc [A [R T]]]]]]].
      cbn [heap set_store count_insert]. rewrite Ec.
      assert (NA : a' <> a) by (intros ->; apply NS; left; exists k; auto).
      assert (Gid : set_gflag c' (gflag c' || gflag c) = c') by (rewrite Gf, orb_false_r; destruct c'; auto).
      rewrite Gid.
      set (b1 := set_store (count_insert b) (upd (store b) i tr) (entries (count_insert b))).
      set (b2 := free_cell (write b1 a' c') a). exists b2, a'. split; auto.
      assert (HH : forall x, heap b2 x = if x =? a then None else heap b x).
      { intros x. unfold b2. cbn [heap free_cell set_mem write]. unfold upd. destruct (Z.eqb_spec x a); auto.
        destruct (Z.eqb_spec x a') as [->|]; auto. }
      assert (LL : forall j k, look (store b2 j) k = look (store b j) k).
      { intros j x. unfold b2. cbn [store free_cell set_mem write b1 set_store]. unfold upd. destruct (Z.eqb_spec j i) as [->|]; auto.
        rewrite HL. destruct (key_dec x k) as [->|]; auto. rewrite Ho. auto. }
      destruct (inv_frame b b2 I) as [I2 [SS SV]]; try reflexivity; auto.
      + intros j. cbn [store b2 free_cell set_mem write b1 set_store]. unfold upd. destruct (Z.eqb_spec j i); auto. apply (i_tok b I).
      + intros x Sx. rewrite HH. destruct (Z.eqb_spec x a) as [->|]; [contradiction|auto].
      + apply (fin_less (tick b) _ (heap b)); [apply (i_fin b I)|cbn; lia|]. intros x Hx. rewrite HH in Hx. destruct (x =? a); [congruence|auto].
      + split; auto. assert (Sb : stored b2 a') by (apply SS; exists k; auto). split; auto. split; [|split; [|split]].
        * apply denotes_fun. exists c'. split; [rewrite HH; destruct (Z.eqb_spec a' a); [contradiction|exact Ec]|].
          unfold k, ckey in K. injection K as K1 K2. split; [congruence|]. rewrite K2.
          apply (den_list_agree (shared b) (heap b)); auto using inv_closed. intros x cx Sx Ex. exists cx. split; auto.
          rewrite HH. destruct (Z.eqb_spec x a) as [->|]; [contradiction|auto].
        * split.
          -- intros x cx N Ex. rewrite HH. destruct (Z.eqb_spec x a); [contradiction|auto].
          -- intros x Sx. apply SS. auto.
          -- auto.
          -- intros y Hx. rewrite HH in Hx. revert Hx. destruct (Z.eqb_spec y a) as [E|N]; intros Hx; [congruence|left; split; auto].
          -- reflexivity.
          -- cbn. auto.
        * intros x Sx. left. apply SS. auto.
        * auto.
    - (* new *)
      symmetry in Ho. cbn [heap set_store count_insert].
      change 0 with (wrap32 0) at 1. change 1 with (wrap32 1) at 2.
      rewrite (sum_args_spec b I ts (cargs c)) by auto.
      set (b1 := set_store (count_insert b) (upd (store b) i tr) (entries (count_insert b) + 1)).
      set (w := DEFAULT_FWEIGHT * 1 + fold_right (fun t n => stdweight t + n) 0 ts).
      set (v := wrap32 (0 + fold_right (fun t n => nvars t + n) 0 ts)). set (fc := wrap32 (1 + fold_right (fun t n => nsyms t + n) 0 ts)).
      set (c2 := mkcell (fcode c) (cargs c) (gstate b1) (v =? 0) (replace c) w v fc).
      set (b2 := write b1 a c2). exists b2, a. split; auto.
      assert (HH : forall x, heap b2 x = if x =? a then Some c2 else heap b x) by reflexivity.
      assert (LL : forall j x, look (store b2 j) x = if (j =? i) then (if key_dec x k then Some (k, a) else look (store b j) x) else look (store b j) x).
      { intros j x. unfold b2. cbn [store set_mem write b1 set_store]. unfold upd. destruct (Z.eqb_spec j i) as [->|]; auto.
        rewrite HL. rewrite Ho. auto. }
      assert (ST : forall k' x, st b2 k' x <-> st b k' x \/ (k' = k /\ x = a)).
      { intros k' x. unfold st. rewrite LL. destruct (Z.eqb_spec (hash k') i) as [E|N].
        - destruct (key_dec k' k) as [->|N2].
          + split; [intros [= <-]; auto|]. intros [H|[_ ->]]; auto. fold i in H. rewrite Ho in H. discriminate.
          + split; [auto|]. intros [H|[H _]]; [auto|contradiction].
        - split; [auto|]. intros [H|[-> _]]; auto. exfalso. apply N. reflexivity. }
      assert (SS : forall x, stored b2 x <-> stored b x \/ x = a).
      { intros x. split.
        - intros [k' H]. apply ST in H. destruct H as [H|[_ H]]; auto. left. exists k'. auto.
        - intros [[k' H]|H]; [exists k'|exists k]; apply ST; auto. }
      assert (SH : forall x, shared b2 x <-> shared b x \/ x = a) by (intros x; unfold shared; rewrite SS; tauto).
      assert (AG : agree (shared b) (heap b) (heap b2)).
      { intros x cx Sx Ex. exists cx. split; auto. rewrite HH. destruct (Z.eqb_spec x a) as [->|]; [contradiction|auto]. }
      assert (DN : denotes (heap b2) a (Fun f ts)).
      { apply denotes_fun. exists c2. split; [rewrite HH, Z.eqb_refl; auto|]. split; auto. cbn [cargs c2].
        apply (den_list_agree (shared b) (heap b)); auto using inv_closed. }
      assert (I2 : inv b2).
      { split.
        - intros j. cbn [store b2 set_mem write b1 set_store]. unfold upd. destruct (Z.eqb_spec j i); auto. apply (i_tok b I).
        - intros j k' x E. rewrite LL in E. destruct (Z.eqb_spec j i) as [->|N].
          + destruct (key_dec k' k) as [->|N2]; [reflexivity|]. apply (i_hash b I i k' x E).
          + apply (i_hash b I j k' x E).
        - intros k' x E. apply ST in E. destruct E as [E|[-> ->]].
          + destruct (i_cell b I k' x E) as [cx [Ex [K [P [Gc [A [R [t [Dt C]]]]]]]]]. assert (Sx : shared b x) by (left; exists k'; auto).
            exists cx. split; [rewrite HH; destruct (Z.eqb_spec x a) as [->|]; [contradiction|auto]|]. split; auto. split; auto. split; auto.
            split; [intros y Hy; apply SH; auto|]. split; [intros y Hy; apply SH; auto|]. exists t. split; auto.
            apply (denotes_agree (shared b) (heap b)); auto using inv_closed.
          + exists c2. rewrite HH, Z.eqb_refl. split; auto. split; [reflexivity|]. cbn [fcode cargs gflag replace c2]. split; [rewrite F; apply scode_pos|].
            split; [reflexivity|]. split; [intros y Hy; apply SH; auto|]. split; [intros y Hy; congruence|]. exists (Fun f ts). split; auto.
            unfold counted. cbn [weight v_count f_count ground c2]. split; [reflexivity|]. split; [reflexivity|]. split; reflexivity.
        - intros f' x E. destruct (i_var b I f' x E) as [N [cx [Ex R]]]. split; auto. exists cx. split; auto. rewrite HH.
          destruct (Z.eqb_spec x a) as [->|]; auto. exfalso. apply NS. right. exists f'. auto.
        - intros x Sx. apply SH in Sx. destruct Sx as [Sx| ->]; auto. apply (i_pos b I); auto.
        - apply (fin_write (tick b) (heap b) a (Some c2)); [apply (i_fin b I)|congruence].
        - cbn [entries b2 write set_mem b1 set_store count_insert store]. rewrite total_upd by (apply bucket_nodup || apply hash_in).
          rewrite (tlen_add (store b i) tr k a); auto; [|apply (i_tok b I)|intros x; rewrite HL, Ho; auto]. rewrite (i_cnt b I). lia. }
      split; auto. split; [apply SS; auto|]. split; auto. split; [|split].
      + split.
        * intros x cx N Ex. rewrite HH. destruct (Z.eqb_spec x a); [contradiction|auto].
        * intros x Sx. apply SS. auto.
        * auto.
        * intros x Hx. destruct (Z.eq_dec x a) as [->|N]; [right; apply SH; auto|left; split; auto].
          rewrite HH in Hx. destruct (Z.eqb_spec x a); [contradiction|auto].
        * reflexivity.
        * cbn. auto.
      + intros x Sx. apply SS. auto.
      + intros x. split; auto.
  Qed.
End Ops.
