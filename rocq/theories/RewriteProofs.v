(** * Proofs about rewriting (property C14). *)
From Verif Require Import Terms Unify UnifyProofs Semantics Clauses ClausesProofs MatchProofs Subsume SubsumeProofs Rewrite.
Local Open Scope nat_scope.

Lemma good_fun S sg f a : good S sg (Fun f a) <-> wf S (Fun f a) /\ sg f = true /\ Forall (good S sg) a.
Proof.
  unfold good. split.
  - intros [W H]. split; auto. split; [apply (H f a); apply subterm_refl|].
    apply Forall_forall. intros t Ht. split.
    + apply wf_fun in W. destruct W as [W _]. rewrite Forall_forall in W. auto.
    + intros g b Hb. apply (H g b). apply subterms_fun. right. eauto.
  - intros [W [Hf HA]]. split; auto. intros g b Hb. apply subterms_fun in Hb. destruct Hb as [Q|[t [Ht Hb]]].
    + injection Q; intros; subst; auto.
    + rewrite Forall_forall in HA. apply (proj2 (HA t Ht) g b Hb).
Qed.

Lemma good_wf S sg t : good S sg t -> wf S t.
Proof. intros H. apply H. Qed.

Lemma good_var S sg x : good S sg (Var x).
Proof. split; [reflexivity|]. intros f a [H|[]]. discriminate. Qed.

Lemma good_sub S sg t u : good S sg t -> In u (subterms t) -> good S sg u.
Proof.
  intros [W H] Hu. split; [eapply wf_subterm; eauto|]. intros f a Hf. apply (H f a). eapply subterm_trans; eauto.
Qed.

Lemma good_app S sg s t : wfsubst S s -> good S sg t -> (forall x, In x (vars t) -> good S sg (s x)) -> good S sg (app s t).
Proof.
  intros Ws. induction t as [x|f a IH] using term_ind'; intros G H; simpl.
  - apply H. left; auto.
  - pose proof (app_wf S s (Fun f a) Ws (good_wf _ _ _ G)) as W. simpl in W.
    apply good_fun in G. destruct G as [_ [Gf Ga]]. apply good_fun. split; auto. split; auto.
    apply Forall_forall. intros u Hu. apply in_map_iff in Hu. destruct Hu as [b [<- Hb]].
    rewrite Forall_forall in IH, Ga. apply IH; auto. intros x Hx. apply H. simpl. apply in_flat_map. eauto.
Qed.

Lemma app_var_subterm s t x : In x (vars t) -> In (s x) (subterms (app s t)).
Proof.
  induction t as [y|f a IH] using term_ind'; intros H.
  - simpl in H. destruct H as [->|[]]. simpl. apply subterm_refl.
  - simpl in H. apply in_flat_map in H. destruct H as [b [Hb Hx]]. rewrite Forall_forall in IH.
    cbn [app]. apply subterms_fun. right. exists (app s b). split; [apply in_map; auto|]. auto.
Qed.

(** ** Orderings *)
Section Order.
  Variables (S : sorting) (sg : sym -> bool) (gt : term -> term -> Prop).
  Hypothesis O : simp_order S sg gt.
  Notation ok := (good S sg).
  Definition ge (t u : term) : Prop := t = u \/ gt t u.

  Lemma gt_irrefl t : ok t -> ~ gt t t.
  Proof.
    intros G. pose proof (so_wf _ _ _ O t) as A. induction A as [t _ IH]. intros H. apply (IH t); auto.
  Qed.

  Lemma ge_trans t u w : ok t -> ok u -> ok w -> ge t u -> ge u w -> ge t w.
  Proof.
    intros Gt Gu Gw [->|H1] [->|H2]; unfold ge; auto. right. eapply (so_trans _ _ _ O t u w); eauto.
  Qed.
  Lemma gt_ge t u w : ok t -> ok u -> ok w -> gt t u -> ge u w -> gt t w.
  Proof. intros Gt Gu Gw H1 [->|H2]; auto. eapply (so_trans _ _ _ O t u w); eauto. Qed.
  Lemma ge_gt t u w : ok t -> ok u -> ok w -> ge t u -> gt u w -> gt t w.
  Proof. intros Gt Gu Gw [->|H1] H2; auto. eapply (so_trans _ _ _ O t u w); eauto. Qed.

  Lemma subterm_ge t u : ok t -> In u (subterms t) -> ge t u.
  Proof.
    induction t as [x|f a IH] using term_ind'; intros G H.
    - destruct H as [<-|[]]. left; auto.
    - apply subterms_fun in H. destruct H as [->|[b [Hb H]]]; [left; auto|].
      pose proof G as G'. apply good_fun in G'. destruct G' as [_ [_ GA]]. rewrite Forall_forall in *.
      right. apply (gt_ge _ b); auto; [eapply good_sub; [apply GA; exact Hb|auto]|].
      apply (so_sub _ _ _ O); auto.
  Qed.

  (** a variable is not greater than any term of its sort *)
  Lemma var_minimal x u : ok u -> tsort S u = vsort S x -> ~ gt (Var x) u.
  Proof.
    intros G HS H. destruct (in_dec Nat.eq_dec x (vars u)) as [I|N].
    - pose proof (app_var_subterm Var u x I) as HSub.
      assert (Q : app Var u = u) by apply app_var.
      rewrite Q in HSub. apply (gt_irrefl u); auto. apply (ge_gt u (Var x) u); auto; [apply good_var|apply subterm_ge; auto].
    - set (sb := fun y => if Nat.eqb y x then u else Var y).
      assert (Q : app sb u = u).
      { rewrite (app_ext sb Var u).
        - apply app_var.
        - intros y Hy. unfold sb. destruct (Nat.eqb_spec y x); auto. subst; contradiction. }
      assert (X : gt (app sb (Var x)) (app sb u)).
      { apply (so_stable _ _ _ O); auto; [apply good_var| |].
        - intros y. unfold sb. destruct (Nat.eqb_spec y x) as [->|]; [split; [auto|apply good_wf in G; auto]|split; reflexivity].
        - intros y. unfold sb. destruct (Nat.eqb y x); auto. apply good_var. }
      rewrite Q in X. simpl in X. unfold sb in X. rewrite Nat.eqb_refl in X. apply (gt_irrefl u); auto.
  Qed.

  (** arguments replaced by smaller or equal ones *)
  Lemma args_ge f : forall a a' pre, ok (Fun f (pre ++ a)) -> ok (Fun f (pre ++ a')) ->
    Forall2 (fun t u => ge t u /\ ok u /\ tsort S t = tsort S u) a a' -> ge (Fun f (pre ++ a)) (Fun f (pre ++ a')).
  Proof.
    induction a as [|t a IH]; intros a' pre G G' H; inversion H as [|? u ? a2 [H1 [H2 H3]] HF]; subst; [left; auto|].
    assert (M : ok (Fun f (pre ++ u :: a))).
    { apply good_fun in G. destruct G as [W [F A]]. apply good_fun. split; [|split; auto].
      - apply wf_fun in W. destruct W as [W1 W2]. apply wf_fun. split.
        + apply Forall_app in W1. destruct W1 as [Wa Wb]. inversion Wb as [|? ? Wb1 Wb2]; subst.
          apply Forall_app. split; auto. constructor; auto. apply H2.
        + rewrite <- W2. rewrite !map_app. simpl. rewrite H3. auto.
      - apply Forall_app in A. destruct A as [A1 A2]. inversion A2 as [|? ? A3 A4]; subst.
        apply Forall_app. split; auto. }
    apply (ge_trans _ (Fun f (pre ++ u :: a)) _); auto.
    - destruct H1 as [->|H1]; [left; auto|]. right. apply (so_mono _ _ _ O); auto.
    - replace (pre ++ u :: a) with ((pre ++ [u]) ++ a) in * by (rewrite <- app_assoc; auto).
      replace (pre ++ u :: a2) with ((pre ++ [u]) ++ a2) in * by (rewrite <- app_assoc; auto).
      apply IH; auto.
  Qed.
End Order.

(** ** Matching *)
Lemma match_facts S pp m t st : wf S m -> wf S t -> smatch (Datatypes.S (size m)) S pp no_bindings m t = Success st ->
  wfsubst S (as_subst (bnd st)) /\ app (as_subst (bnd st)) m = t /\ (forall x, bnd st x <> None <-> In x (vars m)) /\
  (forall x, In x (vars m) -> In x (trail st)) /\ wfbinding S (bnd st).
Proof.
  intros Wm Wt H. pose proof (smatch_correct (Datatypes.S (size m)) S pp no_bindings m t (no_bindings_wf S) Wm Wt) as C.
  rewrite H in C. destruct C as [X [B [A D]]].
  assert (Q : app (as_subst (bnd st)) m = t) by (apply A; apply as_subst_agrees).
  split; [apply as_subst_wf; auto|]. split; auto.
  assert (DOM : forall x, bnd st x <> None <-> In x (vars m)).
  { intros x. split; [|apply D]. intros Hx. destruct (in_dec Nat.eq_dec x (vars m)) as [I|N]; auto. exfalso.
    destruct (bnd st x) as [u|] eqn:Hb; [|congruence].
    pose (s' := fun y => if Nat.eqb y x then Fun 0 [u] else as_subst (bnd st) y).
    assert (P1 : agrees (bnd st) s').
    { apply A. split; [intros y w Hy; discriminate|]. rewrite (app_ext s' (as_subst (bnd st))); auto.
      intros y Hy. unfold s'. destruct (Nat.eqb_spec y x); auto. subst; contradiction. }
    pose proof (P1 x u Hb) as P2. unfold s' in P2. rewrite Nat.eqb_refl in P2.
    clear - P2. assert (Z : size (Fun 0 [u]) = size u) by (rewrite P2; auto). simpl in Z. lia. }
  split; [exact DOM|]. split; auto.
  intros x Hx. destruct X as [new [X1 [X2 X3]]]. rewrite X1. apply in_or_app. left.
  destruct (in_dec Nat.eq_dec x new) as [I|N]; auto. exfalso. apply (proj2 (DOM x) Hx). rewrite X3; auto.
Qed.

Lemma match_complete S pp m t s : fo_sorts S pp -> wf S m -> wf S t -> wfsubst S s -> app s m = t ->
  exists st, smatch (Datatypes.S (size m)) S pp no_bindings m t = Success st /\ forall x, In x (vars m) -> as_subst (bnd st) x = s x.
Proof.
  intros F Wm Wt Ws Q. pose proof (smatch_correct (Datatypes.S (size m)) S pp no_bindings m t (no_bindings_wf S) Wm Wt) as C.
  destruct (smatch (Datatypes.S (size m)) S pp no_bindings m t) as [st|st| |] eqn:H.
  - exists st. split; auto. destruct (match_facts S pp m t st Wm Wt H) as [_ [Q2 _]].
    apply app_eq_on_vars. congruence.
  - exfalso. destruct C as [_ [_ C]]. apply (C F s); auto. intros x u Hx. discriminate.
  - lia.
  - destruct C.
Qed.

Lemma nodup_b_ok l : nodup_b l = true -> NoDup l.
Proof.
  induction l as [|x l IH]; intros H; constructor; simpl in H; apply andb_true_iff in H; destruct H as [H1 H2]; auto.
  intros I. apply negb_true_iff in H1. assert (existsb (Nat.eqb x) l = true); [|congruence].
  apply existsb_exists. exists x. split; auto. apply Nat.eqb_refl.
Qed.

Lemma bound_vars_ok (b : binding) tr l : fold_right (fun x acc => match b x, acc with Some (Var y), Some l => Some (y :: l) | _, _ => None end) (Some []) tr = Some l ->
  Forall2 (fun x y => b x = Some (Var y)) tr l.
Proof.
  revert l. induction tr as [|x tr IH]; simpl; intros l H; [injection H as <-; constructor|].
  destruct (b x) as [[y|]|] eqn:Hb; try discriminate.
  destruct (fold_right _ _ tr) as [l'|] eqn:Hf; try discriminate. injection H as <-. constructor; auto.
Qed.

Lemma renaming_renames st vs : is_renaming st = true -> (forall x, In x vs -> In x (trail st)) -> renames vs (as_subst (bnd st)).
Proof.
  unfold is_renaming, bound_vars. destruct (fold_right _ _ _) as [l|] eqn:Hf; [|discriminate]. intros N HI.
  apply nodup_b_ok in N. apply bound_vars_ok in Hf. revert HI. generalize (trail st) l N Hf. clear. intros tr l N F HI.
  split.
  - intros x Hx. apply HI in Hx. clear - F Hx. induction F as [|z y tr l H F IH]; [destruct Hx|].
    destruct Hx as [->|Hx]; auto. exists y. unfold as_subst. rewrite H. auto.
  - intros x y Hx Hy. apply HI in Hx, Hy. clear HI. unfold as_subst.
    assert (IN : forall z, In z tr -> exists w, In w l /\ bnd st z = Some (Var w)).
    { clear - F. induction F as [|z w tr l H F IH]; intros z' Hz; [destruct Hz|]. destruct Hz as [->|Hz].
      - exists w. split; auto. left; auto.
      - destruct (IH z' Hz) as [w' [H1 H2]]. exists w'. split; auto. right; auto. }
    revert N Hx Hy IN. induction F as [|z w tr l H F IH]; intros N Hx Hy IN; [destruct Hx|].
    inversion N as [|? ? N1 N2]; subst.
    assert (IN' : forall z, In z tr -> exists w, In w l /\ bnd st z = Some (Var w)).
    { clear - F. induction F as [|z w tr l H F IH]; intros z' Hz; [destruct Hz|]. destruct Hz as [->|Hz].
      - exists w. split; auto. left; auto.
      - destruct (IH z' Hz) as [w' [H1 H2]]. exists w'. split; auto. right; auto. }
    destruct Hx as [->|Hx], Hy as [->|Hy]; auto.
    + rewrite H. destruct (IN' y Hy) as [w' [I1 I2]]. rewrite I2. intros Q. injection Q as ->. contradiction.
    + rewrite H. destruct (IN' x Hx) as [w' [I1 I2]]. rewrite I2. intros Q. injection Q as ->. contradiction.
Qed.

(** ** The main invariant *)
Section Main.
  Variable E : env.
  Variable gtb : term -> term -> bool.
  Variable strong : bool.
  Variable minterm : sort -> term.
  Variable enum : nat -> term -> Z -> list dem.
  Variable sdate : nat -> Z.
  Variable full : bool.
  Variable sg : sym -> bool.
  Variable gt : term -> term -> Prop.
  Variables (rules eqs known : list dem).
  Notation SS := (srt E).
  Notation ok := (good SS sg).
  Hypothesis FO : fo_sorts SS (pp E).
  Hypothesis O : simp_order SS sg gt.
  Hypothesis HG : forall s t, ok s -> ok t -> gtb s t = true -> gt s t.
  Hypothesis HMin : strong = true -> forall x, ok (minterm (vsort SS x)) /\ tsort SS (minterm (vsort SS x)) = vsort SS x.
  Hypothesis KOK : forall d, In d known -> dem_ok E sg gt d.
  Hypothesis KR : incl rules known.
  Hypothesis KE : incl eqs known.
  Hypothesis RO : forall d, In d rules -> ori (dlit d) = true /\ (0 < ddate d <= sdate 0)%Z.
  Hypothesis EO : forall d, In d eqs -> ori (dlit d) = false /\ (0 < ddate d <= sdate 1)%Z.
  Definition dset (i : nat) : list dem := match i with 0 => rules | _ => eqs end.
  Hypothesis ES : forall i t z d, In d (enum i t z) -> In d (dset i).
  Hypothesis EC : forall i t z d s, ok t -> In d (dset i) -> wfsubst SS s -> app s (dkey d) = t -> (z < ddate d)%Z -> In d (enum i t z).

  Definition all_d : list dem := if full then rules ++ eqs else rules.

  Definition link_ok (t u : term) : Prop := ok u /\ tsort SS u = tsort SS t /\ gt t u /\ equal_mod E known t u.
  Definition cell_ok (t : term) (c : rwcell) : Prop :=
    match c with
    | Link u _ _ => link_ok t u
    | Dates a b => (forall d u, In d rules -> (ddate d <= a)%Z -> In u (subterms t) -> ~ reduces_top E gtb d u) /\
                   (forall d u, In d (rules ++ eqs) -> (ddate d <= b)%Z -> In u (subterms t) -> ~ reduces_top E gtb d u)
    end.
  Definition inv (W : store) : Prop := forall t, ok t -> cell_ok t (W t).

  Lemma inv_set W t c : inv W -> cell_ok t c -> inv (sset W t c).
  Proof.
    intros I H u G. unfold sset. destruct (term_eqb t u) eqn:Q; [apply term_eqb_eq in Q; subst; auto|apply I; auto].
  Qed.

  Lemma key_ok d : dem_ok E sg gt d -> ok (dkey d) /\ ok (dother d) /\ tsort SS (dkey d) = tsort SS (dother d).
  Proof.
    intros H. unfold dkey, dother. destruct (dleft d); split; try split; try apply H. symmetry. apply H.
  Qed.

  (** instances of demodulators *)
  Lemma inst_equal d s : In d known -> wfsubst SS s -> equal_mod E known (app s (dkey d)) (app s (dother d)).
  Proof.
    intros Hd Ws M HM HT v Hv. pose proof (HT d Hd _ (respects_subst _ _ _ _ _ HM Hv Ws)) as H.
    inversion H as [? ? Z|? ? Z]; [|inversion Z]. unfold holds, lit_holds in Z. rewrite (do_pos _ _ _ _ (KOK d Hd)) in Z.
    rewrite !eval_app. unfold dkey, dother. destruct (dleft d); auto.
  Qed.

  Lemma complete_min_ok : strong = true -> forall vs st, wfbinding SS (bnd st) ->
    let st' := fold_left (fun st x => match bnd st x with
                           | Some _ => st
                           | None => {| bnd := upd (bnd st) x (Some (minterm (vsort SS x))); trail := x :: trail st |}
                           end) vs st in
    wfbinding SS (bnd st') /\ (forall x, bnd st x <> None -> bnd st' x = bnd st x) /\
    (forall x, bnd st x = None -> bnd st' x = None \/ bnd st' x = Some (minterm (vsort SS x))) /\
    ((forall x, In x vs -> bnd st x <> None) -> st' = st).
  Proof.
    intros HST. induction vs as [|x vs IH]; intros st B; cbn [fold_left]; [split; [exact B|split; [auto|split; auto]]|].
    destruct (bnd st x) as [u|] eqn:Hx.
    - destruct (IH st B) as [I1 [I2 [I3 I4]]]. split; auto. split; auto. split; auto.
      intros H. apply I4. intros y Hy. apply H. right; auto.
    - set (st1 := {| bnd := upd (bnd st) x (Some (minterm (vsort SS x))); trail := x :: trail st |}).
      assert (B1 : wfbinding SS (bnd st1)).
      { intros y t. unfold st1, upd. simpl. destruct (Nat.eqb_spec x y) as [->|N]; [|apply B].
        intros Q. injection Q as <-. destruct (HMin HST y) as [M1 M2]. split; auto. apply (good_wf _ _ _ M1). }
      destruct (IH st1 B1) as [I1 [I2 [I3 I4]]]. split; auto. split; [|split].
      + intros y Hy. rewrite I2; unfold st1, upd; simpl; destruct (Nat.eqb_spec x y) as [->|N]; congruence.
      + intros y Hy. destruct (Nat.eq_dec x y) as [->|N].
        * right. rewrite I2; unfold st1, upd; simpl; rewrite Nat.eqb_refl; auto. discriminate.
        * apply I3. unfold st1, upd; simpl. destruct (Nat.eqb_spec x y); congruence.
      + intros H. exfalso. apply (H x); auto. left; auto.
  Qed.

  (** bindings: good terms only *)
  Definition good_b (st : bstate) : Prop := wfbinding SS (bnd st) /\ forall x, ok (as_subst (bnd st) x).

  Lemma good_b_subst st : good_b st -> wfsubst SS (as_subst (bnd st)).
  Proof. intros [B _]. apply as_subst_wf; auto. Qed.

  Lemma match_good m t st : ok m -> ok t -> smatch (S (size m)) SS (pp E) no_bindings m t = Success st -> good_b st.
  Proof.
    intros Gm Gt H. destruct (match_facts SS (pp E) m t st (good_wf _ _ _ Gm) (good_wf _ _ _ Gt) H) as [W [Q [D [_ B]]]].
    split; auto. intros x. destruct (in_dec Nat.eq_dec x (vars m)) as [I|N].
    - apply (good_sub SS sg t); auto. rewrite <- Q. apply app_var_subterm. auto.
    - unfold as_subst. destruct (bnd st x) eqn:Hb; [|apply good_var]. exfalso. apply N. apply D. congruence.
  Qed.

  Lemma inst1_good st t : good_b st -> ok t -> ok (inst1 st t).
  Proof. intros G Gt. apply good_app; auto; [apply good_b_subst; auto|]. intros; apply G. Qed.

  (** the rule test: the instance is smaller, and the key instance is unchanged *)
  Lemma rule_ok l r st st' : ok l -> ok r -> good_b st -> (forall x, In x (vars l) -> bnd st x <> None) ->
    instance_is_rule E gtb strong minterm l r st = Some st' ->
    good_b st' /\ inst1 st' l = inst1 st l /\ gt (inst1 st' l) (inst1 st' r).
  Proof.
    intros Gl Gr G HD. unfold instance_is_rule. set (st1 := if strong then complete_min E minterm st r else st).
    assert (X : good_b st1 /\ inst1 st1 l = inst1 st l).
    { unfold st1. destruct (bool_dec strong true) as [HST|HST]; [rewrite HST|apply not_true_is_false in HST; rewrite HST; auto]. unfold complete_min.
      destruct (complete_min_ok HST (vars r) st (proj1 G)) as [I1 [I2 [I3 _]]]. split; [split; auto|].
      - intros x. unfold as_subst. destruct (bnd st x) as [u|] eqn:Hx.
        + rewrite I2 by congruence. rewrite Hx. destruct G as [_ G]. specialize (G x). unfold as_subst in G. rewrite Hx in G. auto.
        + destruct (I3 x Hx) as [->| ->]; [apply good_var|apply HMin; auto].
      - unfold inst1. apply app_ext. intros x Hx. unfold as_subst. rewrite I2; auto. }
    destruct X as [X1 X2]. destruct (negb strong && has_unbound st1 r); [discriminate|].
    destruct (is_renaming st1); [discriminate|]. destruct (gtb (inst1 st1 l) (inst1 st1 r)) eqn:HB; [|discriminate].
    intros Q. injection Q as <-. split; auto. split; auto. apply HG; auto; apply inst1_good; auto.
  Qed.

  Lemma sort_inst d st : dem_ok E sg gt d -> good_b st -> tsort SS (inst1 st (dother d)) = tsort SS (inst1 st (dkey d)).
  Proof.
    intros Hd G. unfold inst1. rewrite !app_sort by (apply good_b_subst; auto). symmetry. apply key_ok. auto.
  Qed.

  Lemma ori_step d t st : In d known -> ok t -> ori (dlit d) = true ->
    smatch (S (size (dkey d))) SS (pp E) no_bindings (dkey d) t = Success st -> link_ok t (inst1 st (dother d)).
  Proof.
    intros Hd Gt HO HM. pose proof (KOK d Hd) as D. destruct (key_ok d D) as [Gk [Go _]].
    pose proof (match_good _ _ _ Gk Gt HM) as GB.
    destruct (match_facts SS (pp E) _ t st (good_wf _ _ _ Gk) (good_wf _ _ _ Gt) HM) as [W [Q _]].
    split; [apply inst1_good; auto|]. split; [rewrite sort_inst; auto; unfold inst1; rewrite Q; auto|].
    split.
    - rewrite <- Q at 1. unfold inst1. apply (so_stable _ _ _ O); auto; [apply GB|].
      destruct (do_ori _ _ _ _ D HO) as [G L]. unfold dkey, dother. rewrite L. auto.
    - rewrite <- Q at 1. apply inst_equal; auto.
  Qed.

  Lemma rule_step d t st st' : In d known -> ok t ->
    smatch (S (size (dkey d))) SS (pp E) no_bindings (dkey d) t = Success st ->
    instance_is_rule E gtb strong minterm (dkey d) (dother d) st = Some st' -> link_ok t (inst1 st' (dother d)).
  Proof.
    intros Hd Gt HM HR. pose proof (KOK d Hd) as D. destruct (key_ok d D) as [Gk [Go _]].
    pose proof (match_good _ _ _ Gk Gt HM) as GB.
    destruct (match_facts SS (pp E) _ t st (good_wf _ _ _ Gk) (good_wf _ _ _ Gt) HM) as [W [Q [DM _]]].
    destruct (rule_ok _ _ _ _ Gk Go GB (fun x Hx => proj2 (DM x) Hx) HR) as [G' [Q' HGt]].
    assert (Q2 : inst1 st' (dkey d) = t) by (rewrite Q'; exact Q).
    split; [apply inst1_good; auto|]. split; [rewrite sort_inst, Q2; auto|].
    split; [rewrite <- Q2 at 1; auto|]. rewrite <- Q2 at 1. apply inst_equal; auto. apply good_b_subst; auto.
  Qed.

  Lemma try_ok r d t u : In d known -> ok t -> try_demod E gtb strong minterm r d t = Some u -> link_ok t u.
  Proof.
    intros Hd Gt. unfold try_demod. destruct (smatch _ _ _ _ _ _) as [st|st| |] eqn:HM; try discriminate.
    destruct (dleft d).
    - destruct (ori (dlit d)) eqn:HO.
      + destruct (negb r || negb (is_renaming st)); [|discriminate]. intros Q. injection Q as <-. eapply ori_step; eauto.
      + destruct (instance_is_rule _ _ _ _ _ _ _) as [st'|] eqn:HR; [|discriminate].
        destruct (negb r || negb (is_renaming st')); [|discriminate]. intros Q. injection Q as <-. eapply rule_step; eauto.
    - destruct (instance_is_rule _ _ _ _ _ _ _) as [st'|] eqn:HR; [|discriminate]. intros Q. injection Q as <-. eapply rule_step; eauto.
  Qed.

  Lemma try_complete d t : In d known -> ok t -> try_demod E gtb strong minterm false d t = None -> ~ reduces_top E gtb d t.
  Proof.
    intros Hd Gt HT [s [Ws [Q HR]]]. pose proof (KOK d Hd) as D. destruct (key_ok d D) as [Gk [Go _]].
    destruct (match_complete SS (pp E) (dkey d) t s FO (good_wf _ _ _ Gk) (good_wf _ _ _ Gt) Ws Q) as [st [HM HA]].
    unfold try_demod in HT. rewrite HM in HT.
    destruct (match_facts SS (pp E) _ t st (good_wf _ _ _ Gk) (good_wf _ _ _ Gt) HM) as [W [Q2 [DM [TR _]]]].
    destruct (ori (dlit d)) eqn:HO.
    - rewrite (proj2 (do_ori _ _ _ _ D HO)) in HT. simpl in HT. discriminate.
    - destruct HR as [|[HI [HN HB]]]; [discriminate|].
      assert (X : instance_is_rule E gtb strong minterm (dkey d) (dother d) st = Some st).
      { unfold instance_is_rule.
        assert (Z : (if strong then complete_min E minterm st (dother d) else st) = st).
        { destruct (bool_dec strong true) as [HST|HST]; [rewrite HST|apply not_true_is_false in HST; rewrite HST; auto]. unfold complete_min. apply (complete_min_ok HST (vars (dother d)) st).
          - apply (match_good _ _ _ Gk Gt HM).
          - intros x Hx. apply DM. apply HI. auto. }
        rewrite Z.
        assert (U : has_unbound st (dother d) = false).
        { unfold has_unbound. apply not_true_is_false. intros U. apply existsb_exists in U. destruct U as [x [Hx U]].
          apply (proj2 (DM x) (HI x Hx)). destruct (bnd st x); congruence. }
        rewrite U, andb_false_r.
        destruct (is_renaming st) eqn:RN.
        { exfalso. apply HN. destruct (renaming_renames st (vars (dkey d)) RN TR) as [R1 R2]. split.
          - intros x Hx. rewrite <- HA by auto. apply R1; auto.
          - intros x y Hx Hy Hxy. apply R2; auto. rewrite !HA; auto. }
        unfold inst1. rewrite Q2. rewrite (app_ext (as_subst (bnd st)) s (dother d)) by (intros x Hx; apply HA; auto). rewrite HB. auto. }
      rewrite X in HT. simpl in HT. destruct (dleft d); discriminate.
  Qed.

  Lemma link_neq t u : ok t -> link_ok t u -> u <> t.
  Proof. intros G [_ [_ [H _]]] ->. exact (gt_irrefl SS sg gt O t G H). Qed.

  Lemma dset_known i d : In d (dset i) -> In d known.
  Proof. destruct i; simpl; auto. Qed.

  Lemma find_some c r t u : forall ds, (forall d, In d ds -> In d known) -> ok t ->
    find_demod E gtb strong minterm c r t ds = Some u -> link_ok t u.
  Proof.
    induction ds as [|d ds IH]; intros HK G; cbn [find_demod]; [discriminate|].
    destruct (negb _); [apply IH; auto; intros; apply HK; right; auto|].
    destruct (try_demod _ _ _ _ _ _ _) as [w|] eqn:HT; [|apply IH; auto; intros; apply HK; right; auto].
    intros Q. injection Q as <-. eapply try_ok; eauto. apply HK. left; auto.
  Qed.

  Lemma find_none c t : forall ds, (forall d, In d ds -> In d known) -> ok t -> find_demod E gtb strong minterm c false t ds = None ->
    forall d, In d ds -> (nf_date c (negb (ori (dlit d))) < ddate d)%Z -> ~ reduces_top E gtb d t.
  Proof.
    induction ds as [|d ds IH]; intros HK G HF e He HD; [destruct He|]. cbn [find_demod] in HF.
    assert (HK' : forall d, In d ds -> In d known) by (intros; apply HK; right; auto).
    destruct (negb (nf_date c (negb (ori (dlit d))) <? ddate d)%Z) eqn:HN.
    - destruct He as [->|He]; [|apply IH; auto]. apply negb_true_iff, Z.ltb_ge in HN. lia.
    - destruct (try_demod _ _ _ _ _ _ _) as [w|] eqn:HT; [discriminate|].
      destruct He as [->|He]; [|apply IH; auto]. apply try_complete; auto. apply HK. left; auto.
  Qed.

  (** rewriting at the top *)
  Lemma rewrite_set_ok W i t r : inv W -> ok t ->
    let (W1, t1) := rewrite_set E gtb strong minterm enum full W i t r in
    inv W1 /\ (t1 = t -> W1 = W /\ (r = false -> forall d, In d (dset i) -> (nf_date (W t) full < ddate d)%Z ->
        (nf_date (W t) (negb (ori (dlit d))) < ddate d)%Z -> ~ reduces_top E gtb d t)) /\
    (t1 <> t -> W1 = add_link W t t1 true r /\ link_ok t t1).
  Proof.
    intros I G. unfold rewrite_set. destruct (find_demod _ _ _ _ _ _ _ _) as [u|] eqn:HF.
    - assert (L : link_ok t u).
      { eapply find_some; [|exact G|exact HF]. intros d Hd. apply (dset_known i). eapply ES; eauto. }
      destruct (term_eqb u t) eqn:Q; [apply term_eqb_eq in Q; exfalso; eapply link_neq; eauto|].
      split; [apply inv_set; auto|]. split; auto. intros ->. rewrite term_eqb_refl in Q. discriminate.
    - split; auto. split; [|congruence]. intros _. split; auto. intros -> d Hd H1 H2 R.
      pose proof R as R'. destruct R as [s [Ws [Q _]]].
      apply (find_none _ _ _ (fun d Hd => dset_known i d (ES _ _ _ _ Hd)) G HF d); auto. eapply EC; eauto.
  Qed.

  Definition same_or_link (W W' : store) (t : term) : Prop := W' = W \/ exists u r, W' = add_link W t u true r /\ link_ok t u.

  (** demodulators older than the cell's dates do not apply *)
  Lemma old_dates W t d : inv W -> ok t -> In d (rules ++ eqs) ->
    (ddate d <= nf_date (W t) full)%Z \/ (ddate d <= nf_date (W t) (negb (ori (dlit d))))%Z ->
    In d all_d -> ~ reduces_top E gtb d t.
  Proof.
    intros I G Hd HD HA. specialize (I t G). 
    assert (P : (0 < ddate d)%Z) by (apply in_app_or in Hd; destruct Hd as [Hd|Hd]; [apply RO in Hd|apply EO in Hd]; tauto).
    destruct (W t) as [u tp rr|a b]; cbn [nf_date] in HD; [lia|]. destruct I as [I1 I2].
    assert (X : (ddate d <= a /\ In d rules)%Z \/ (ddate d <= b)%Z).
    { destruct HD as [HD|HD].
      - unfold all_d in HA. destruct full; auto.
      - destruct (ori (dlit d)) eqn:HO; simpl in HD; [|right; lia]. left. split; [lia|].
        apply in_app_or in Hd. destruct Hd as [Hd|Hd]; auto. apply EO in Hd. destruct Hd; congruence. }
    destruct X as [[X1 X2]|X]; [apply I1|apply I2]; auto; apply subterm_refl.
  Qed.

  Lemma rewrite_list_ok W t r : inv W -> ok t ->
    let (W1, t1) := rewrite_list E gtb strong minterm enum sdate full W t r in
    inv W1 /\ (t1 = t -> W1 = W /\ (r = false -> forall d, In d all_d -> ~ reduces_top E gtb d t)) /\
    (t1 <> t -> W1 = add_link W t t1 true r /\ link_ok t t1).
  Proof.
    intros I G. unfold rewrite_list.
    assert (STEP : forall i, let (W1, t1) := if (nf_date (W t) full <? sdate i)%Z then rewrite_set E gtb strong minterm enum full W i t r else (W, t) in
      inv W1 /\ (t1 = t -> W1 = W /\ (r = false -> forall d, In d (dset i) -> (ddate d <= sdate i)%Z -> In d all_d -> In d (rules ++ eqs) -> ~ reduces_top E gtb d t)) /\
      (t1 <> t -> W1 = add_link W t t1 true r /\ link_ok t t1)).
    { intros i. destruct (Z.ltb_spec (nf_date (W t) full) (sdate i)) as [H|H].
      - pose proof (rewrite_set_ok W i t r I G) as HS. destruct (rewrite_set _ _ _ _ _ _ _ _ _ _) as [W1 t1].
        destruct HS as [H1 [H2 H3]]. split; auto. split; auto. intros Q. destruct (H2 Q) as [H4 H5]. split; auto.
        intros Hr d Hd HD HA HRE. 
        destruct (Z.lt_ge_cases (nf_date (W t) full) (ddate d)) as [L1|L1]; [|apply (old_dates W t d); auto].
        destruct (Z.lt_ge_cases (nf_date (W t) (negb (ori (dlit d)))) (ddate d)) as [L2|L2]; [|apply (old_dates W t d); auto].
        apply H5; auto.
      - split; auto. split; [|congruence]. intros _. split; auto. intros Hr d Hd HD HA HRE. apply (old_dates W t d); auto. left. lia. }
    pose proof (STEP 0) as S0.
    destruct (if (nf_date (W t) full <? sdate 0)%Z then _ else _) as [W1 t1]. destruct S0 as [A1 [A2 A3]].
    destruct (term_eqb t1 t) eqn:Q; cbn [negb orb].
    - apply term_eqb_eq in Q. subst t1. destruct (A2 eq_refl) as [-> A4].
      assert (RS : forall d, In d rules -> In d (rules ++ eqs)) by (intros; apply in_or_app; auto).
      destruct full eqn:HFull; cbn [negb].
      + pose proof (STEP 1) as S1.
        destruct (if (nf_date (W t) true <? sdate 1)%Z then _ else _) as [W2 t2]. destruct S1 as [B1 [B2 B3]].
        split; auto. split; auto. intros Q2. destruct (B2 Q2) as [B4 B5]. split; auto.
        intros Hr d Hd. pose proof Hd as Hd'. unfold all_d in Hd. rewrite HFull in Hd. apply in_app_or in Hd. destruct Hd as [Hd|Hd].
        * apply A4; auto. apply RO; auto.
        * apply B5; auto; [apply EO; auto|apply in_or_app; auto].
      + split; auto. split; [|congruence]. intros _. split; auto. intros Hr d Hd. pose proof Hd as Hd'. unfold all_d in Hd. rewrite HFull in Hd.
        apply A4; auto. apply RO; auto.
    - split; auto. split; [|intros N; apply A3; auto]. intros ->. rewrite term_eqb_refl in Q. discriminate.
  Qed.

  (** ** Termination and correctness of the normal form computation *)
  Lemma equal_refl t : equal_mod E known t t.
  Proof. intros M _ _ v _. auto. Qed.
  Lemma equal_trans t u w : equal_mod E known t u -> equal_mod E known u w -> equal_mod E known t w.
  Proof. intros H1 H2 M HM HT v Hv. rewrite (H1 M HM HT v Hv). apply H2; auto. Qed.

  Definition below (t u : term) : Prop := ge gt t u /\ ok u /\ tsort SS u = tsort SS t /\ equal_mod E known t u.
  Lemma below_refl t : ok t -> below t t.
  Proof. intros G. split; [left; auto|]. split; auto. split; auto. apply equal_refl. Qed.
  Lemma below_trans t u w : ok t -> below t u -> below u w -> below t w.
  Proof.
    intros G [H1 [H2 [H3 H4]]] [K1 [K2 [K3 K4]]]. split; [apply (ge_trans SS sg gt O t u w); auto|]. split; auto.
    split; [congruence|]. apply (equal_trans t u w); auto.
  Qed.
  Lemma link_below t u : link_ok t u -> below t u.
  Proof. intros [H1 [H2 [H3 H4]]]. split; [right; auto|auto]. Qed.

  Definition norm (t : term) : Prop := forall u d, In u (subterms t) -> In d all_d -> ~ reduces_top E gtb d u.
  Definition post (r : bool) (t t' : term) : Prop := below t t' /\ (r = false -> norm t').

  Lemma all_d_sub d : In d all_d -> In d (rules ++ eqs).
  Proof. unfold all_d. destruct full; auto. intros; apply in_or_app; auto. Qed.

  Lemma all_d_known d : In d all_d -> In d known.
  Proof. intros H. apply all_d_sub in H. apply in_app_or in H. destruct H; auto. Qed.

  Lemma follow_ok W r : inv W -> forall t, ok t -> exists N t1, (forall n, N <= n -> follow n W t r = Some t1) /\
    below t t1 /\ (r = false -> top_rewritten (W t1) = false) /\ (t1 = t -> top_rewritten (W t) = true -> r = true).
  Proof.
    intros I t. induction (so_wf _ _ _ O t) as [t _ IH]. intros G.
    pose proof (I t G) as HC. destruct (W t) as [u tp rr|a b] eqn:HW.
    - destruct tp.
      + destruct (negb r || rr) eqn:HR.
        * cbn [cell_ok] in HC. pose proof HC as [L1 [L2 [L3 L4]]].
          destruct (IH u) as [N [t1 [H1 [H2 [H3 H4]]]]]; auto.
          exists (S N), t1. split.
          { intros [|n] Hn; [lia|]. cbn [follow]. rewrite HW, HR. apply H1. lia. }
          split; [apply (below_trans t u t1); auto; apply link_below; auto|]. split; auto.
          intros -> _. exfalso. destruct H2 as [H2 _]. apply (gt_irrefl SS sg gt O t G). apply (gt_ge SS sg gt O t u t); auto.
        * exists 1, t. split; [intros [|n] Hn; [lia|]; cbn [follow]; rewrite HW, HR; auto|].
          split; [apply below_refl; auto|]. apply orb_false_iff in HR. destruct HR as [HR _]. destruct r; [|discriminate]. split; auto. discriminate.
      + exists 1, t. split; [intros [|n] Hn; [lia|]; cbn [follow]; rewrite HW; auto|].
        split; [apply below_refl; auto|]. rewrite HW. simpl. split; auto. discriminate.
    - exists 1, t. split; [intros [|n] Hn; [lia|]; cbn [follow]; rewrite HW; auto|].
      split; [apply below_refl; auto|]. rewrite HW. simpl. split; auto. discriminate.
  Qed.

  Lemma var_norm x : norm (Var x).
  Proof.
    intros u d [<-|[]] Hd [s [Ws [Q HR]]]. pose proof (all_d_known d Hd) as K. pose proof (KOK d K) as D.
    destruct (key_ok d D) as [Gk [Go Sk]].
    destruct HR as [HO|[HI [_ HB]]].
    - destruct (do_ori _ _ _ _ D HO) as [HGt HL].
      destruct (dkey d) as [y|f a] eqn:HK; [|discriminate Q].
      assert (X : gt (dkey d) (dother d)) by (unfold dkey, dother; rewrite HL; auto).
      rewrite HK in X. revert X. apply (var_minimal SS sg gt O); auto. 
    - destruct (dkey d) as [y|f a] eqn:HK; [|discriminate Q]. simpl in Q.
      assert (Gs : ok (app s (dother d))).
      { apply good_app; auto. intros z Hz. apply HI in Hz. simpl in Hz. destruct Hz as [<-|[]]. rewrite Q. apply good_var. }
      pose proof (HG _ _ (good_var SS sg x) Gs HB) as X. revert X. apply (var_minimal SS sg gt O); auto.
      rewrite app_sort, <- Sk by auto. simpl. destruct (Ws y) as [Wy _]. rewrite Q in Wy. simpl in Wy. congruence.
  Qed.

  Lemma date_norm W t : inv W -> ok t -> rewritten (W t) = false -> (demod_date sdate full <= nf_date (W t) full)%Z -> norm t.
  Proof.
    intros I G HR HD u d Hu Hd. specialize (I t G). destruct (W t) as [|a b]; [discriminate|]. destruct I as [I1 I2].
    unfold demod_date in HD. unfold all_d in Hd. cbn [nf_date] in HD. destruct full.
    - apply I2; auto. apply in_app_or in Hd. destruct Hd as [Hd|Hd]; [apply RO in Hd|apply EO in Hd]; lia.
    - apply I1; auto. apply RO in Hd. lia.
  Qed.

  Lemma finish_ok W t r : inv W -> ok t -> (r = false -> norm t) -> inv (finish_nf sdate full W t r).
  Proof.
    intros I G HN. unfold finish_nf. destruct (W t) as [|a b] eqn:HW; auto. destruct r; auto. specialize (HN eq_refl).
    apply inv_set; auto. pose proof (I t G) as HC. rewrite HW in HC. destruct HC as [C1 C2]. split.
    - intros d u Hd _ Hu. apply HN; auto. unfold all_d. destruct full; auto. apply in_or_app; auto.
    - intros d u Hd HD Hu. destruct full eqn:HF; [|apply C2; auto]. apply HN; auto. unfold all_d. rewrite HF. auto.
  Qed.

  Definition loop_fine (t : term) : Prop := ok t -> forall W r, inv W ->
    exists N W' t', (forall n, N <= n -> run E gtb strong minterm enum sdate full n W (JLoop t r) = Some (W', t')) /\
      inv W' /\ post r t t'.

  Lemma norm_fine t : ok t -> (forall u, ok u -> ge gt t u -> loop_fine u) -> forall W r, inv W ->
    exists N W' t', (forall n, N <= n -> run E gtb strong minterm enum sdate full n W (JNorm t r) = Some (W', t')) /\
      inv W' /\ post r t t'.
  Proof.
    intros G HL W r I. destruct (follow_ok W r I t G) as [N [t1 [H1 [H2 [H3 _]]]]]. pose proof H2 as [K1 [K2 _]].
    destruct (negb (rewritten (W t1)) && negb (nf_date (W t1) full <? demod_date sdate full)%Z) eqn:HE.
    - exists (S N), W, t1. split.
      { intros [|n] Hn; [lia|]. cbn [run]. rewrite H1 by lia. rewrite HE. auto. }
      split; auto. split; auto. intros _. apply andb_true_iff in HE. destruct HE as [E1 E2].
      apply negb_true_iff in E1, E2. apply Z.ltb_ge in E2. apply (date_norm W); auto.
    - destruct t1 as [x|f a].
      + exists (S N), W, (Var x). split.
        { intros [|n] Hn; [lia|]. cbn [run]. rewrite H1 by lia. rewrite HE. auto. }
        split; auto. split; auto. intros _. apply var_norm.
      + destruct (HL (Fun f a) K2 K1 K2 W r I) as [N2 [W' [t' [A1 [A2 [A3 A4]]]]]].
        exists (S (N + N2)), W', t'. split.
        { intros [|n] Hn; [lia|]. cbn [run]. rewrite H1 by lia. rewrite HE. apply A1. lia. }
        split; auto. split; auto. apply (below_trans t (Fun f a) t'); auto.
  Qed.

  Lemma args_fine : forall args, (forall a, In a args -> ok a) -> (forall a u, In a args -> ok u -> ge gt a u -> loop_fine u) ->
    forall W, inv W -> exists N W' args', 
      (forall n, N <= n -> norm_args (fun W a => run E gtb strong minterm enum sdate full n W (JNorm a false)) W args = Some (W', args')) /\
      inv W' /\ Forall2 (post false) args args'.
  Proof.
    induction args as [|a args IH]; intros HO HL W I.
    - exists 0, W, []. split; auto.
    - destruct (norm_fine a (HO a (or_introl eq_refl)) (fun u => HL a u (or_introl eq_refl)) W false I) as [N1 [W1 [a' [A1 [A2 A3]]]]].
      destruct (IH (fun b Hb => HO b (or_intror Hb)) (fun b u Hb => HL b u (or_intror Hb)) W1 A2) as [N2 [W2 [r' [B1 [B2 B3]]]]].
      exists (N1 + N2), W2, (a' :: r'). split.
      { intros n Hn. cbn [norm_args]. rewrite A1 by lia. 
        change ((fix go (W0 : store) (args0 : list term) {struct args0} : option (store * list term) :=
              match args0 with
              | [] => Some (W0, [])
              | a0 :: args'0 => match run E gtb strong minterm enum sdate full n W0 (JNorm a0 false) with
                      | Some (W3, a'0) => match go W3 args'0 with
                                         | Some (W4, r) => Some (W4, a'0 :: r)
                                         | None => None
                                         end
                      | None => None
                      end
              end) W1 args) with (norm_args (fun W a => run E gtb strong minterm enum sdate full n W (JNorm a false)) W1 args).
        rewrite B1 by lia. auto. }
      split; auto.
  Qed.

  Lemma args_post f args args' : ok (Fun f args) -> Forall2 (post false) args args' ->
    below (Fun f args) (Fun f args') /\ forall a, In a args' -> norm a.
  Proof.
    intros G H.
    assert (G' : ok (Fun f args')).
    { apply good_fun in G. destruct G as [W [Hf HA]]. apply good_fun. apply wf_fun in W. destruct W as [W1 W2].
      assert (X : Forall (good SS sg) args' /\ map (tsort SS) args' = map (tsort SS) args).
      { clear - H. induction H as [|a a' l l' [[_ [P1 [P2 _]]] _] H [IH1 IH2]]; simpl; split; auto. congruence. }
      destruct X as [X1 X2]. split; [|split; auto]. apply wf_fun. split; [|congruence].
      eapply Forall_impl; [|exact X1]. intros t. apply good_wf. }
    split; [split; [|split; [auto|split; [reflexivity|]]]|].
    - apply (args_ge SS sg gt O f args args' []); auto. simpl.
      clear - H. induction H as [|a a' l l' [[P0 [P1 [P2 _]]] _] H IH]; constructor; auto.
    - intros M HM HT v Hv. simpl. f_equal. clear - H HM HT Hv.
      induction H as [|a a' l l' [[_ [_ [_ P]]] _] H IH]; simpl; auto. f_equal; auto.
    - intros a Ha. clear - H Ha. induction H as [|b b' l l' [_ P] H IH]; [destruct Ha|]. destruct Ha as [<-|Ha]; auto.
  Qed.

  Lemma top_not_rewritten_after W t r : inv W -> ok t -> top_rewritten (W t) = false ->
    let W3 := fst (rewrite_list E gtb strong minterm enum sdate full W t r) in
    inv W3 /\ (top_rewritten (W3 t) = false -> W3 = W /\ (r = false -> forall d, In d all_d -> ~ reduces_top E gtb d t)).
  Proof.
    intros I G HT. pose proof (rewrite_list_ok W t r I G) as H. destruct (rewrite_list _ _ _ _ _ _ _ _ _ _) as [W1 t1].
    destruct H as [H1 [H2 H3]]. simpl. split; auto. intros HN. destruct (term_eqb t1 t) eqn:Q.
    - apply term_eqb_eq in Q. auto.
    - exfalso. destruct H3 as [H3 _]; [intros ->; rewrite term_eqb_refl in Q; discriminate|].
      rewrite H3 in HN. unfold add_link, sset in HN. rewrite term_eqb_refl in HN. discriminate.
  Qed.

  Lemma loop_all : forall t, loop_fine t.
  Proof.
    intros t. induction (so_wf _ _ _ O t) as [t _ IH]. intros G W r I. destruct t as [x|f args].
    - exists 1, (finish_nf sdate full W (Var x) r), (Var x). split; [intros [|n] Hn; [lia|]; auto|].
      split; [apply finish_ok; auto; intros; apply var_norm|]. split; [apply below_refl; auto|]. intros; apply var_norm.
    - assert (GA : forall a, In a args -> ok a).
      { intros a Ha. apply good_fun in G. destruct G as [_ [_ G]]. rewrite Forall_forall in G. auto. }
      destruct (args_fine args GA) with (W := W) as [N1 [W1 [args' [A1 [A2 A3]]]]]; auto.
      { intros a u Ha Gu HGe. intros _. apply IH; auto. split; auto. apply (gt_ge SS sg gt O _ a u); auto.
        apply (so_sub _ _ _ O); auto. }
      destruct (args_post f args args' G A3) as [P1 P2]. pose proof P1 as [Q1 [Q2 [Q3 Q4]]].
      set (modified := negb (term_eqb (Fun f args') (Fun f args))).
      set (t1 := Fun f args').
      set (W2 := if modified then add_link W1 (Fun f args) t1 false true else W1).
      assert (I2 : inv W2).
      { unfold W2. destruct modified eqn:HM; auto. apply inv_set; auto. cbn [cell_ok]. split; auto. split; auto. split; auto.
        destruct Q1 as [Q1|Q1]; auto. exfalso. unfold modified in HM. rewrite <- Q1, term_eqb_refl in HM. discriminate. }
      set (r' := r && negb modified).
      set (W3 := if top_rewritten (W2 t1) then W2 else fst (rewrite_list E gtb strong minterm enum sdate full W2 t1 r')).
      assert (I3 : inv W3 /\ (top_rewritten (W3 t1) = false -> r' = false -> forall d, In d all_d -> ~ reduces_top E gtb d t1)).
      { unfold W3. destruct (top_rewritten (W2 t1)) eqn:HT.
        - split; auto. intros; congruence.
        - destruct (top_not_rewritten_after W2 t1 r' I2 Q2 HT) as [X1 X2]. split; auto. intros Y1 Y2. apply X2; auto. }
      destruct I3 as [I3 I4].
      destruct (follow_ok W3 r' I3 t1 Q2) as [N2 [t2 [B1 [B2 [B3 B4]]]]]. pose proof B2 as [R1 [R2 _]].
      assert (STEP : forall n, N1 + N2 <= n -> run E gtb strong minterm enum sdate full (S n) W (JLoop (Fun f args) r) =
        if modified || negb (term_eqb t1 t2) then run E gtb strong minterm enum sdate full n W3 (JLoop t2 r)
        else Some (finish_nf sdate full W3 t1 r, t1)).
      { intros n Hn. cbn [run]. rewrite A1 by lia. fold modified. fold t1. fold W2. fold r'. fold W3. rewrite B1 by lia. auto. }
      destruct (modified || negb (term_eqb t1 t2)) eqn:HC.
      + assert (HGt : gt (Fun f args) t2).
        { apply orb_true_iff in HC. destruct HC as [HC|HC].
          - destruct Q1 as [Q1|Q1]; [exfalso; unfold modified in HC; rewrite <- Q1, term_eqb_refl in HC; discriminate|].
            apply (gt_ge SS sg gt O _ t1 t2); auto.
          - destruct R1 as [R1|R1]; [rewrite R1, term_eqb_refl in HC; discriminate|].
            apply (ge_gt SS sg gt O _ t1 t2); auto. }
        destruct (IH t2 (conj HGt (conj R2 G)) R2 W3 r I3) as [N3 [W' [t' [C1 [C2 [C3 C4]]]]]].
        exists (S (N1 + N2 + N3)), W', t'. split.
        { intros [|n] Hn; [lia|]. rewrite STEP by lia. apply C1. lia. }
        split; auto. split; auto. apply (below_trans _ t1); auto. apply (below_trans _ t2); auto.
      + apply orb_false_iff in HC. destruct HC as [HM HC]. apply negb_false_iff, term_eqb_eq in HC.
        assert (NT : r = false -> norm t1).
        { intros Hr u d Hu Hd. unfold t1 in Hu. apply subterms_fun in Hu. destruct Hu as [->|[a [Ha Hu]]].
          - apply I4; auto; [|unfold r'; rewrite Hr; auto].
            rewrite HC. apply B3. unfold r'. rewrite Hr. auto.
          - apply (P2 a Ha); auto. }
        exists (S (N1 + N2)), (finish_nf sdate full W3 t1 r), t1. split.
        { intros [|n] Hn; [lia|]. rewrite STEP by lia. auto. }
        split; [apply finish_ok; auto|]. split; auto.
  Qed.

  Theorem normal_form_total t : ok t -> forall W r, inv W ->
    exists N W' t', (forall n, N <= n -> normal_form E gtb strong minterm enum sdate full n W t r = Some (W', t')) /\
      inv W' /\ post r t t'.
  Proof. intros G W r I. unfold normal_form. apply norm_fine; auto. intros u Gu _. apply loop_all. Qed.

  (** links made by backward rewriting keep the invariant *)
  Lemma backward_inv W d t : inv W -> ok t -> In d known -> inv (backward_link E gtb strong minterm W d t).
  Proof.
    intros I G Hd. unfold backward_link. destruct (smatch _ _ _ _ _ _) as [st|st| |] eqn:HM; auto.
    destruct (ori (dlit d)) eqn:HO.
    - destruct (negb (rewritten (W t)) || _); auto. destruct (term_eqb _ _); auto. apply inv_set; auto. cbn [cell_ok]. eapply ori_step; eauto.
    - destruct (instance_is_rule _ _ _ _ _ _ _) as [st'|] eqn:HR; auto.
      destruct (negb (rewritten (W t)) || _); auto. destruct (term_eqb _ _); auto. apply inv_set; auto. cbn [cell_ok]. eapply rule_step; eauto.
  Qed.
End Main.

(** ** More fuel does not change the answer *)
Lemma follow_mono : forall n m W t r x, n <= m -> follow n W t r = Some x -> follow m W t r = Some x.
Proof.
  induction n as [|n IHn]; intros m W0 t0 r0 x Hm Hf; [discriminate|]. destruct m as [|m]; [lia|]. cbn [follow] in *.
  destruct (W0 t0) as [u [|] rr|]; auto. destruct (negb r0 || rr); auto. apply IHn; auto. lia.
Qed.

Lemma run_mono E gtb strong minterm enum sdate full : forall n m W j x, n <= m -> run E gtb strong minterm enum sdate full n W j = Some x ->
  run E gtb strong minterm enum sdate full m W j = Some x.
Proof.
  induction n as [|n IHn]; intros m W0 j x Hm Hr; [discriminate|]. destruct m as [|m]; [lia|].
  cbn [run] in *. destruct j as [t0 r0|t0 r0].
  - destruct (follow n W0 t0 r0) as [t1|] eqn:HF; [|discriminate]. rewrite (follow_mono n m _ _ _ _ ltac:(lia) HF).
    destruct (_ && _); auto. destruct t1; auto. apply IHn; auto. lia.
  - destruct t0 as [y|f a]; auto.
    destruct (norm_args (fun W a => run E gtb strong minterm enum sdate full n W (JNorm a false)) W0 a) as [[W1 a']|] eqn:HA; [|discriminate].
    assert (HA' : norm_args (fun W a => run E gtb strong minterm enum sdate full m W (JNorm a false)) W0 a = Some (W1, a')).
    { clear - HA IHn Hm. revert W0 W1 a' HA. induction a as [|b a IHa]; intros W0 W1 a' HA; cbn [norm_args] in *; auto.
      destruct (run E gtb strong minterm enum sdate full n W0 (JNorm b false)) as [[Wb b']|] eqn:Hb; [|discriminate].
      rewrite (IHn m W0 (JNorm b false) (Wb, b')) by (auto; lia).
      match type of HA with match ?X with _ => _ end = _ => destruct X as [[W3 r']|] eqn:HX; [|discriminate] end.
      pose proof (IHa Wb W3 r' HX) as Z. cbn [norm_args] in Z. rewrite Z. auto. }
    rewrite HA'. cbv zeta in *.
    match type of Hr with match follow n ?A ?B ?C with _ => _ end = _ => destruct (follow n A B C) as [t2'|] eqn:HF; [|discriminate] end.
    rewrite (follow_mono n m _ _ _ _ ltac:(lia) HF). destruct (_ || _); auto. apply IHn; auto. lia.
Qed.
