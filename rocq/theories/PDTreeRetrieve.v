(** * The nodes visited by a search are those whose path matches the query. *)
From Coq Require Import Permutation.
From Verif Require Import Terms Unify UnifyProofs MatchProofs PDTree PDTreeProofs PDTreeSearch.

Section Retrieve.
  Context {A : Type}.
  Variables (aterm : A -> term) (aclause : A -> nat) (adate : A -> Z) (rank : key -> Z) (use_size use_age : bool).
  Variables (S : sorting) (pp : sym -> bool) (general : bool) (date : Z).
  Notation node := (@node A).
  Notation kids := (list (key * option node)).
  Notation verify := (verify aterm adate use_size use_age date).
  Notation var_try := (var_try S pp).
  Notation ninv := (ninv aterm adate).
  Notation den := (den aterm adate use_size use_age S pp general date).
  Notation denv := (denv aterm adate use_size use_age S pp general date).
  Notation dens := (dens aterm adate use_size use_age S pp general date).
  Notation full := (full aterm adate use_size use_age S pp general date).

  (** matching a path against a stack of terms *)
  Fixpoint pm (p : list key) (ts : list term) (st : bstate) : option bstate :=
    match p, ts with
    | [], [] => Some st
    | KF f :: p', Fun g a :: r => if Nat.eqb f g then pm p' (a ++ r) st else None
    | KV x :: p', t :: r => match var_try st x t with Some st' => pm p' r st' | None => None end
    | _, _ => None
    end.

  Definition kw (k : key) : Z := match k with KF _ => 2 | KV _ => 1 end%Z.
  Definition pw (p : list key) : Z := fold_right (fun k n => kw k + n)%Z 0%Z p.
  Definition tw (ts : list term) : Z := fold_right (fun t n => stdweight t + n)%Z 0%Z ts.
  Lemma tw_app a b : tw (a ++ b) = (tw a + tw b)%Z.
  Proof. induction a; simpl; lia. Qed.
  Lemma pw_app a b : pw (a ++ b) = (pw a + pw b)%Z.
  Proof. induction a; simpl; lia. Qed.
  Lemma stdweight_fun f a : stdweight (Fun f a) = (2 + tw a)%Z.
  Proof. reflexivity. Qed.
  Lemma pw_keys t : pw (keys t) = stdweight t.
  Proof.
    induction t as [x|f a IH] using term_ind'; [reflexivity|]. rewrite stdweight_fun. simpl.
    assert (pw (flat_map keys a) = tw a) as ->; [|reflexivity].
    induction IH as [|x l H _ IHl]; simpl; auto. rewrite pw_app, H, IHl. reflexivity.
  Qed.

  Lemma pm_weight : forall p ts st st', pm p ts st = Some st' -> (pw p <= tw ts)%Z.
  Proof.
    induction p as [|[f|x] p IH]; intros [|t r] st st' H; simpl in H; try discriminate H; [apply Z.le_refl| |].
    - destruct t as [y|g a]; [discriminate|]. destruct (Nat.eqb f g); [|discriminate]. apply IH in H. rewrite tw_app in H.
      change (pw (KF f :: p)) with (2 + pw p)%Z. change (tw (Fun g a :: r)) with (stdweight (Fun g a) + tw r)%Z. rewrite stdweight_fun. lia.
    - destruct (var_try st x t) as [st1|]; [|discriminate]. apply IH in H. change (pw (KV x :: p)) with (1 + pw p)%Z. change (tw (t :: r)) with (stdweight t + tw r)%Z. pose proof (stdweight_pos t). lia.
  Qed.

  Lemma in_denv l t rest st w m st' : In (m, st') (denv l t rest st w) ->
    exists x c st1, In (x, Some c) l /\ var_try st x t = Some st1 /\ In (m, st') (full c rest st1 (w - (stdweight t - 1))).
  Proof.
    induction l as [|[x [c|]] r IH]; simpl; try tauto. rewrite in_app_iff. intros [H|H].
    - destruct (var_try st x t) as [st1|] eqn:V; [|destruct H]. exists x, c, st1. auto.
    - destruct (IH H) as [y [d [st1 [H1 H2]]]]. exists y, d, st1. auto.
  Qed.
  Lemma denv_in l t rest st w x c st1 m st' : (forall y o, In (y, o) l -> o <> None) -> In (x, Some c) l -> var_try st x t = Some st1 ->
    In (m, st') (full c rest st1 (w - (stdweight t - 1))) -> In (m, st') (denv l t rest st w).
  Proof.
    induction l as [|[y [d|]] r IH]; simpl; intros N Hi V H; try tauto.
    - rewrite in_app_iff. destruct Hi as [Hi|Hi].
      + inversion Hi; subst. rewrite V. auto.
      + right. apply IH; auto. intros z o Hz. apply (N z). auto.
    - exfalso. apply (N y None); auto.
  Qed.
  Lemma vlist_in (ks : kids) x o : In (x, o) (vlist ks) <-> In (KV x, o) ks.
  Proof.
    induction ks as [|[[f|y] p] r IH]; simpl; [tauto| |].
    - rewrite IH. split; [auto|intros [H|H]; [discriminate|auto]].
    - rewrite IH. split; intros [H|H]; auto; left; congruence.
  Qed.

  (** what is returned is stored under a matching path *)
  Lemma full_sound : forall n, ninv n -> forall ts st w m st', In (m, st') (full n ts st w) ->
    forall e, In e (n_entries m) -> exists p, In (p, e) (stored n) /\ pm p ts st = Some st'.
  Proof.
    induction n as [sz ag rc lf es ks IH] using node_ind'. intros I ts st w m st' H e He.
    set (n := Node sz ag rc lf es ks) in *.
    assert (Self : forall ts0, ts0 = [] -> m = n -> st' = st -> exists p, In (p, e) (stored n) /\ pm p ts0 st = Some st').
    { intros ts0 -> -> ->. exists []. split; auto. unfold n. rewrite stored_eq. apply in_or_app. left. apply (in_map (fun x => ([], x))). exact He. }
    apply ninv_eq in I. destruct I as [D [L [_ [_ K]]]].
    assert (Vis : forall m0 st0, In (m0, st0) (visit n ts st) -> m0 = n /\ st0 = st /\ ts = []).
    { unfold visit. intros m0 st0. destruct (negb _ && is_nil ts) eqn:E; [|intros []]. intros [Hx|[]]. inversion Hx; subst.
      apply andb_true_iff in E. destruct E as [_ E]. destruct ts; [auto|discriminate]. }
    unfold PDTreeSearch.full in H. apply in_app_or in H. destruct H as [H|H].
    { destruct (Vis _ _ H) as [E1 [E2 E3]]. apply Self; auto. }
    rewrite den_eq in H. destruct (verify n w); [|destruct H]. destruct ts as [|t rest].
    { destruct (n_leaf n).
      - destruct H as [H|[]]. injection H as H1 H2. apply Self; auto.
      - destruct (Vis _ _ H) as [E1 [E2 E3]]. apply Self; auto. }
    assert (Kid : forall k c q st0 ts0 w0, In (k, Some c) ks -> In (m, st') (full c ts0 st0 w0) -> (forall p, pm p ts0 st0 = Some st' -> pm (k :: p) (t :: rest) st = Some st') ->
              q = t -> exists p, In (p, e) (stored n) /\ pm p (t :: rest) st = Some st').
    { intros k c q st0 ts0 w0 Hk Hf Hp _. rewrite Forall_forall in IH, K. pose proof (K _ Hk) as [Ic _]. pose proof (IH _ Hk) as IHc. simpl in IHc.
      destruct (IHc Ic ts0 st0 w0 m st' Hf e He) as [p [P1 P2]]. exists (k :: p). split; [|auto].
      unfold n. rewrite stored_eq. apply in_or_app. right. apply in_flat_map. exists (k, Some c). split; auto.
      unfold kid_stored. simpl. apply in_map_iff. exists (p, e). auto. }
    assert (HS : In (m, st') (dens ks t rest st w) -> exists p, In (p, e) (stored n) /\ pm p (t :: rest) st = Some st').
    { unfold PDTreeSearch.dens. destruct t as [x|g a]; [intros []|]. destruct (kfind (KF g) ks) as [c|] eqn:F; [|intros []].
      intros Hf. apply kfind_in in F. apply (Kid (KF g) c (Fun g a) st (a ++ rest) w F Hf); auto.
      intros p Hp. simpl. rewrite Nat.eqb_refl. auto. }
    assert (HV : In (m, st') (denv (valts n) t rest st w) -> exists p, In (p, e) (stored n) /\ pm p (t :: rest) st = Some st').
    { intros Hv. apply in_denv in Hv. destruct Hv as [x [c [st1 [H1 [H2 H3]]]]]. unfold valts, n in H1. simpl in H1. apply vlist_in in H1.
      apply (Kid (KV x) c t st1 rest (w - (stdweight t - 1))%Z H1 H3); auto. intros p Hp. simpl. rewrite H2. auto. }
    destruct general; apply in_app_or in H; destruct H; auto.
  Qed.

  (** everything stored under a matching path is returned unless it is too old *)
  Lemma full_complete : forall n, ninv n -> forall p e ts st w c0 st', In (p, e) (stored n) -> pm p ts st = Some st' ->
    stdweight (aterm e) = (c0 + pw p)%Z -> w = (c0 + tw ts)%Z -> (date = 0 \/ date < adate e)%Z ->
    exists m, In e (n_entries m) /\ In (m, st') (full n ts st w).
  Proof.
    induction n as [sz ag rc lf es ks IH] using node_ind'. intros I p e ts st w c0 st' Hs Hp Ew Eww Hd.
    set (n := Node sz ag rc lf es ks) in *.
    assert (Gs : (get_size aterm n <= stdweight (aterm e))%Z) by exact (get_size_ok aterm aclause adate n I _ Hs).
    assert (Ga : (adate e <= get_age adate n)%Z) by exact (get_age_ok aterm aclause adate n I _ Hs).
    pose proof I as I'. apply ninv_eq in I'. destruct I' as [D [L [_ [_ K]]]].
    assert (V : verify n w = true).
    { unfold PDTree.verify. pose proof (pm_weight _ _ _ _ Hp) as PW.
      replace (w <? get_size aterm n)%Z with false by (symmetry; apply Z.ltb_ge; lia). rewrite andb_false_r. cbn [negb andb].
      destruct Hd as [Hd|Hd]; [replace (date =? 0)%Z with true by (symmetry; apply Z.eqb_eq; auto); cbn [negb]; rewrite andb_false_r; auto|].
      replace (date <? get_age adate n)%Z with true by (symmetry; apply Z.ltb_lt; lia). cbn [negb]. rewrite ?andb_false_r. auto. }
    unfold n in Hs. rewrite stored_eq in Hs. apply in_app_or in Hs. destruct Hs as [Hs|Hs].
    - apply in_map_iff in Hs. destruct Hs as [x [E Hx]]. inversion E; subst p x. simpl in Hp. destruct ts; [|discriminate]. inversion Hp; subst st'.
      exists n. split; auto. unfold PDTreeSearch.full, visit. apply in_or_app. left. simpl is_nil. rewrite andb_true_r.
      change (n_entries n) with es. destruct es; [destruct Hx|]. simpl. auto.
    - apply in_flat_map in Hs. destruct Hs as [[k [c|]] [Hk Hs]]; [|destruct Hs]. unfold kid_stored in Hs. simpl in Hs. apply in_map_iff in Hs.
      destruct Hs as [[q x] [E Hx]]. simpl in E. inversion E; subst p x. clear E.
      rewrite Forall_forall in IH. pose proof (IH _ Hk) as IHc. simpl in IHc.
      assert (Ic : ninv c). { rewrite Forall_forall in K. exact (proj1 (K _ Hk)). }
      destruct k as [f|x].
      + destruct ts as [|[y|g a] r]; simpl in Hp; try discriminate. destruct (Nat.eqb_spec f g) as [->|]; [|discriminate].
        destruct (IHc Ic q e (a ++ r) st w (c0 + 2)%Z st' Hx Hp) as [m [M1 M2]]; auto.
        { cbn [pw fold_right kw] in Ew. fold (pw q) in Ew. lia. }
        { rewrite Eww, tw_app. change (tw (Fun g a :: r)) with (stdweight (Fun g a) + tw r)%Z. rewrite stdweight_fun. lia. }
        exists m. split; auto. unfold PDTreeSearch.full. apply in_or_app. right. rewrite den_eq, V.
        assert (Hi : In (m, st') (dens (n_kids n) (Fun g a) r st w)).
        { unfold PDTreeSearch.dens. simpl. rewrite (kfind_nodup rank _ _ _ D Hk). exact M2. }
        destruct general; apply in_or_app; auto.
      + destruct ts as [|t r]; simpl in Hp; [discriminate|]. destruct (var_try st x t) as [st1|] eqn:Vt; [|discriminate].
        destruct (IHc Ic q e r st1 (w - (stdweight t - 1))%Z (c0 + 1)%Z st' Hx Hp) as [m [M1 M2]]; auto.
        { cbn [pw fold_right kw] in Ew. fold (pw q) in Ew. lia. }
        { rewrite Eww. change (tw (t :: r)) with (stdweight t + tw r)%Z. lia. }
        exists m. split; auto. unfold PDTreeSearch.full. apply in_or_app. right. rewrite den_eq, V.
        assert (Hi : In (m, st') (denv (valts n) t r st w)).
        { apply (denv_in _ _ _ _ _ x c st1); auto.
          - intros y o Hy -> . apply vlist_in in Hy. rewrite Forall_forall in K. exact (K _ Hy).
          - apply vlist_in. exact Hk. }
        destruct general; apply in_or_app; auto.
  Qed.

  (** ** paths of terms *)
  Fixpoint pmt (l t : term) (st : bstate) {struct l} : option bstate :=
    match l with
    | Var x => var_try st x t
    | Fun f ls =>
        match t with
        | Var _ => None
        | Fun g ts =>
            if Nat.eqb f g then
              (fix go (ls ts : list term) (st : bstate) {struct ls} : option bstate :=
                 match ls, ts with
                 | [], [] => Some st
                 | l :: ls', t :: ts' => match pmt l t st with Some st' => go ls' ts' st' | None => None end
                 | _, _ => None
                 end) ls ts st
            else None
        end
    end.
  Fixpoint pml (ls ts : list term) (st : bstate) {struct ls} : option bstate :=
    match ls, ts with
    | [], [] => Some st
    | l :: ls', t :: ts' => match pmt l t st with Some st' => pml ls' ts' st' | None => None end
    | _, _ => None
    end.
  Lemma pmt_fun f ls g ts st : pmt (Fun f ls) (Fun g ts) st = if Nat.eqb f g then pml ls ts st else None.
  Proof.
    cbn [pmt]. destruct (Nat.eqb f g); auto.
  Qed.

  Lemma pm_keys : forall l t, wf S l -> wf S t -> forall q r st,
    pm (keys l ++ q) (t :: r) st = match pmt l t st with Some st' => pm q r st' | None => None end.
  Proof.
    induction l as [x|f ls IH] using term_ind'; intros t Wl Wt q r st; [reflexivity|].
    destruct t as [y|g ts]; [reflexivity|]. rewrite pmt_fun. simpl. destruct (Nat.eqb_spec f g) as [<-|]; [|reflexivity].
    pose proof (wf_fun_length _ _ _ _ Wl Wt) as Len. apply wf_fun in Wl. apply wf_fun in Wt. destruct Wl as [Wl _], Wt as [Wt _].
    revert ts Len Wt st. induction IH as [|l ls Hl _ IHl]; intros [|t ts] Len Wt st; simpl in Len; try discriminate; [reflexivity|].
    inversion Wl; subst. inversion Wt; subst. simpl. rewrite <- app_assoc, Hl by auto. destruct (pmt l t st); auto.
  Qed.
  Lemma pm_term l t st : wf S l -> wf S t -> pm (keys l) [t] st = pmt l t st.
  Proof. intros Wl Wt. rewrite <- (app_nil_r (keys l)), pm_keys by auto. destruct (pmt l t st); auto. Qed.

  Definition good_ext (vs : list var) (st st' : bstate) : Prop :=
    (forall x u, bnd st x = Some u -> bnd st' x = Some u) /\ (forall x, In x vs -> bnd st' x <> None) /\
    (forall x, ~ In x vs -> bnd st' x = bnd st x).
  Lemma good_ext_trans a b s1 s2 s3 : good_ext a s1 s2 -> good_ext b s2 s3 -> good_ext (a ++ b) s1 s3.
  Proof.
    intros [A1 [A2 A3]] [B1 [B2 B3]]. split; [auto|]. split.
    - intros x Hx. apply in_app_or in Hx. destruct Hx as [Hx|Hx]; auto. specialize (A2 _ Hx). destruct (bnd s2 x) eqn:E; [|tauto].
      rewrite (B1 _ _ E). discriminate.
    - intros x Hx. rewrite B3, A3; auto; intros Hi; apply Hx; apply in_or_app; auto.
  Qed.

  Lemma var_try_some st x t st' : var_try st x t = Some st' -> good_ext [x] st st' /\ bnd st' x = Some t.
  Proof.
    rewrite var_try_eq. destruct (Nat.eqb _ _); [|discriminate]. destruct (bnd st x) as [u|] eqn:E.
    - destruct (term_eqb u t) eqn:Eu; [|discriminate]. apply term_eqb_eq in Eu. intros H. inversion H; subst. split; auto.
      split; [auto|]. split; auto. intros y [<-|[]]. congruence.
    - destruct (qpredpos pp t); [discriminate|]. intros H. inversion H; subst. simpl. unfold upd. rewrite Nat.eqb_refl. split; auto.
      split; [|split].
      + intros y u Hy. simpl. unfold upd. destruct (Nat.eqb_spec x y); auto. congruence.
      + intros y [<-|[]]. simpl. unfold upd. rewrite Nat.eqb_refl. discriminate.
      + intros y Hy. simpl. unfold upd. destruct (Nat.eqb_spec x y); auto. subst. exfalso. apply Hy. simpl. auto.
  Qed.

  Lemma agrees_ext vs st st' s : good_ext vs st st' -> agrees (bnd st') s -> agrees (bnd st) s.
  Proof. intros [H _] Ha x t Hx. apply Ha. auto. Qed.

  Lemma pmt_sound : forall l t st st', pmt l t st = Some st' -> good_ext (vars l) st st' /\ forall s, agrees (bnd st') s -> app s l = t.
  Proof.
    induction l as [x|f ls IH] using term_ind'; intros t st st' H.
    - apply var_try_some in H. destruct H as [H1 H2]. split; auto. intros s Ha. simpl. apply Ha; auto.
    - destruct t as [y|g ts]; [discriminate|]. rewrite pmt_fun in H. destruct (Nat.eqb_spec f g) as [<-|]; [|discriminate].
      assert (G : good_ext (flat_map vars ls) st st' /\ forall s, agrees (bnd st') s -> map (app s) ls = ts).
      { revert ts st H. induction IH as [|l ls Hl _ IHl]; intros [|t ts] st H; simpl in H; try discriminate.
        - inversion H; subst. split; auto. unfold good_ext. simpl. split; [auto|]. split; [tauto|auto].
        - destruct (pmt l t st) as [st1|] eqn:E; [|discriminate]. destruct (Hl _ _ _ E) as [A1 A2]. destruct (IHl _ _ H) as [B1 B2].
          split; [simpl; eapply good_ext_trans; eauto|]. intros s Ha. simpl. rewrite (A2 s), (B2 s); auto. eapply agrees_ext; eauto. }
      destruct G as [G1 G2]. split; auto. intros s Ha. simpl. rewrite (G2 s Ha). reflexivity.
  Qed.

  Lemma var_try_wf st x t st' : wf S t -> wfbinding S (bnd st) -> var_try st x t = Some st' -> wfbinding S (bnd st').
  Proof.
    intros Wt Wb. rewrite var_try_eq. destruct (Nat.eqb_spec (vsort S x) (tsort S t)) as [Es|]; [|discriminate]. destruct (bnd st x) as [u|] eqn:E.
    - destruct (term_eqb u t); [|discriminate]. intros H. inversion H; subst. auto.
    - destruct (qpredpos pp t); [discriminate|]. intros H. inversion H; subst. simpl. intros y u. unfold upd.
      destruct (Nat.eqb_spec x y) as [<-|]; [intros Hu; inversion Hu; subst; auto|apply Wb].
  Qed.
  Lemma pmt_wf : forall l t st st', wf S t -> wfbinding S (bnd st) -> pmt l t st = Some st' -> wfbinding S (bnd st').
  Proof.
    induction l as [x|f ls IH] using term_ind'; intros t st st' Wt Wb H; [eapply var_try_wf; eauto|].
    destruct t as [y|g ts]; [discriminate|]. rewrite pmt_fun in H. destruct (Nat.eqb_spec f g) as [<-|]; [|discriminate].
    apply wf_fun in Wt. destruct Wt as [Wt _]. revert ts st Wt Wb H.
    induction IH as [|l ls Hl _ IHl]; intros [|t ts] st Wt Wb H; simpl in H; try discriminate; [inversion H; subst; auto|].
    destruct (pmt l t st) as [st1|] eqn:E; [|discriminate]. inversion Wt; subst. apply (IHl ts st1); auto. apply (Hl t st); auto.
  Qed.

  Lemma pmt_complete : fo_sorts S pp -> forall l t st s, wfsubst S s -> agrees (bnd st) s -> app s l = t ->
    exists st', pmt l t st = Some st' /\ agrees (bnd st') s.
  Proof.
    intros FO. induction l as [x|f ls IH] using term_ind'; intros t st s Ws Ha E.
    - simpl in E. simpl pmt. rewrite var_try_eq. destruct (Ws x) as [W1 W2]. rewrite E in W1, W2. rewrite W1, Nat.eqb_refl.
      destruct (bnd st x) as [u|] eqn:Eb.
      + rewrite (Ha _ _ Eb) in E. subst u. rewrite term_eqb_refl. eauto.
      + assert (Q : qpredpos pp t = false).
        { destruct t as [y|g ts]; auto. simpl. destruct (pp g) eqn:Ep; auto. exfalso. apply (FO g x Ep). exact W1. }
        rewrite Q. eexists. split; [reflexivity|]. simpl. intros y u. unfold upd. destruct (Nat.eqb_spec x y) as [<-|]; [intros Hu; inversion Hu; subst; auto|apply Ha].
    - simpl in E. subst t. rewrite pmt_fun, Nat.eqb_refl. revert st Ha.
      induction IH as [|l ls Hl _ IHl]; intros st Ha; simpl; [eauto|].
      destruct (Hl (app s l) st s Ws Ha eq_refl) as [st1 [E1 A1]]. rewrite E1. apply IHl. auto.
  Qed.

  (** ** the retrieval loop *)
  Notation retrieve := (retrieve aterm adate use_size use_age S pp general date).

  Definition binds_exactly (l t : term) (st : bstate) : Prop :=
    app (as_subst (bnd st)) l = t /\ wfbinding S (bnd st) /\ (forall x, In x (vars l) -> bnd st x <> None) /\ (forall x, ~ In x (vars l) -> bnd st x = None).

  Theorem retrieve_ok root L t : fo_sorts S pp -> tree_ok aterm adate S root L ->
    exists N outs st', (forall n, N <= n -> retrieve n root t = Some (outs, st')) /\ trail st' = [] /\ (forall x, bnd st' x = None) /\
      (forall e st, In (e, st) outs -> In e L /\ (wf S t -> binds_exactly (aterm e) t st)) /\
      (forall e s, wf S t -> In e L -> wfsubst S s -> app s (aterm e) = t -> (date = 0 \/ date < adate e)%Z -> exists st, In (e, st) outs).
  Proof.
    intros FO [I P Q].
    set (st0 := {| bnd := fun _ => None; trail := [] |}).
    destruct (root_run aterm adate use_size use_age S pp general date root t st0) as [vis [s' [st' [R [F [Hs [B O]]]]]]].
    destruct (collect_run aterm aclause adate use_size use_age S pp general date vis (search_init general root t) st0 s' st' R F [])
      as [N HN]; [right; auto|left; discriminate|].
    exists N, (flat_map entries_of vis), st'. split; [exact HN|]. destruct B as [B1 B2]. split; [exact B1|]. split; [exact B2|]. split.
    - intros e st Hi. apply in_flat_map in Hi. destruct Hi as [[m sm] [Hv He]]. unfold entries_of in He. simpl in He. apply in_map_iff in He.
      destruct He as [e' [E He]]. inversion E; subst e' sm. clear E.
      assert (Hv' : exists st1, In (m, st1) (den root [t] st0 (stdweight t)) /\ beq st st1).
      { clear - O Hv. induction O as [|[a b] [c d] l l' [H1 H2] _ IH]; [destruct Hv|]. simpl in H1, H2. destruct Hv as [Hv|Hv].
        - inversion Hv; subst. exists d. split; simpl; auto.
        - destruct (IH Hv) as [st1 [A1 A2]]. exists st1. split; simpl; auto. }
      destruct Hv' as [st1 [Hd Hb]].
      destruct (full_sound root I [t] st0 (stdweight t) m st1) with (e := e) as [p [P1 P2]]; auto.
      { unfold PDTreeSearch.full. apply in_or_app. auto. }
      destruct (Q _ P1) as [Q1 Q2]. simpl in Q1, Q2. subst p. split.
      + apply (Permutation_in _ P). change e with (snd (keys (aterm e), e)). apply in_map. auto.
      + intros Wt. rewrite pm_term in P2 by auto. assert (W1 : wfbinding S (bnd st1)) by (apply (pmt_wf _ _ _ _ Wt) in P2; auto; intros ? ? Hn; discriminate).
        apply pmt_sound in P2. destruct P2 as [[G1 [G2 G3]] G4]. destruct Hb as [_ Hb]. split; [|split; [intros x u; rewrite Hb; apply W1|split]].
        * apply G4. intros x u Hx. unfold as_subst. rewrite Hb, Hx. auto.
        * intros x Hx. rewrite Hb. auto.
        * intros x Hx. rewrite Hb, G3; auto.
    - intros e s Wt He Ws E Hd. apply (Permutation_in _ (Permutation_sym P)) in He. apply in_map_iff in He. destruct He as [[p x] [Ex Hx]]. simpl in Ex. subst x.
      destruct (Q _ Hx) as [Q1 Q2]. simpl in Q1, Q2. subst p.
      destruct (pmt_complete FO (aterm e) t st0 s Ws) as [st1 [C1 C2]]; auto. { intros ? ? Hn. discriminate. }
      rewrite <- pm_term in C1 by auto.
      destruct (full_complete root I (keys (aterm e)) e [t] st0 (stdweight t) 0%Z st1) as [m [M1 M2]]; auto.
      { rewrite pw_keys. lia. }
      { simpl. lia. }
      unfold PDTreeSearch.full in M2. apply in_app_or in M2. destruct M2 as [M2|M2].
      { unfold visit in M2. rewrite andb_false_r in M2. destruct M2. }
      assert (Hv' : exists st2, In (m, st2) vis).
      { clear - O M2. induction O as [|[a b] [c d] l l' [H1 H2] _ IH]; [destruct M2|]. simpl in H1, H2. destruct M2 as [Hv|Hv].
        - inversion Hv; subst. exists b. simpl; auto.
        - destruct (IH Hv) as [st2 A1]. exists st2. simpl; auto. }
      destruct Hv' as [st2 Hv']. exists st2. apply in_flat_map. exists (m, st2). split; auto. unfold entries_of. simpl. apply in_map_iff. exists e. auto.
  Qed.
End Retrieve.
