(** * Rewriting replaces terms by terms that are equal in all models of the clauses: no assumption on the term ordering. *)
From Verif Require Import Terms Unify UnifyProofs Semantics Clauses ClausesProofs MatchProofs Subsume SubsumeProofs Rewrite RewriteProofs Split SaturateSyms.
Local Open Scope nat_scope.

Section Rw.
Variables (E : env) (gtb : term -> term -> bool) (strong : bool) (minterm : sort -> term) (N : sym) (G : list clause).
Notation SS := (srt E).
Definition tgood (t : term) : Prop := wf SS t /\ primary t /\ sok N t.
Definition eqG (t u : term) : Prop := forall M, model_ok SS (dist E) M -> (forall c, In c G -> clause_true SS M c) -> forall v, respects SS M v -> eval M v t = eval M v u.
Definition link_ok (t u : term) : Prop := tgood t /\ tgood u /\ tsort SS u = tsort SS t /\ eqG t u.
Definition links_ok (W : store) : Prop := forall t u a b, W t = Link u a b -> link_ok t u.
Definition dgood (d : dem) : Prop := eqn_ok E (dlit d) /\ lok N (dlit d) /\ pos (dlit d) = true /\ follows E G [dlit d].
Hypothesis HMin : strong = true -> forall x, tgood (minterm (vsort SS x)) /\ tsort SS (minterm (vsort SS x)) = vsort SS x.

Lemma link_refl t : tgood t -> link_ok t t.
Proof. intros H. split; auto. split; auto. split; auto. intros M _ _ v _. auto. Qed.
Lemma link_trans t u w : link_ok t u -> link_ok u w -> link_ok t w.
Proof. intros [A [B [C D]]] [A' [B' [C' D']]]. split; auto. split; auto. split; [congruence|]. intros M HM HT v Hv. rewrite (D M HM HT v Hv). apply D'; auto. Qed.
Lemma links_set W t c : links_ok W -> (forall u a b, c = Link u a b -> link_ok t u) -> links_ok (sset W t c).
Proof.
  intros HW HC t' u a b. unfold sset. destruct (term_eqb t t') eqn:Q; [|apply HW]. apply term_eqb_eq in Q. subst t'. apply HC.
Qed.
Lemma links_add W t u top al : links_ok W -> link_ok t u -> links_ok (add_link W t u top al).
Proof. intros HW HL. apply links_set; auto. intros u' a b [= <- _ _]. auto. Qed.
Lemma no_links_ok : links_ok no_links. Proof. intros t u a b H. discriminate. Qed.

Lemma tgood_sub t u : tgood t -> In u (subterms t) -> tgood u.
Proof.
  intros [A [B C]] H. split; [eapply wf_subterm; eauto|]. split; [|eapply sok_sub; eauto].
  intros x Hx. apply B. clear - H Hx. revert u H Hx. induction t as [y|f a IH] using term_ind'; intros u H Hx; simpl in H.
  - destruct H as [<-|[]]; auto.
  - destruct H as [<-|H]; auto. apply in_flat_map in H. destruct H as [t [Ht H]]. rewrite Forall_forall in IH. simpl. apply in_flat_map. exists t. split; auto. eapply IH; eauto.
Qed.
Lemma tgood_app s t : wfsubst SS s -> tgood t -> (forall x, In x (vars t) -> tgood (s x)) -> tgood (Terms.app s t).
Proof.
  intros Ws [A [B C]] H. split; [apply app_wf; auto|]. split; [|apply sok_app; auto; intros x Hx; apply H; auto].
  intros y Hy. clear - H Hy. induction t as [x|f a IH] using term_ind'; simpl in *; [apply (H x (or_introl eq_refl)); auto|].
  rewrite Forall_forall in IH. apply in_flat_map in Hy. destruct Hy as [u [Hu Hy]]. apply in_map_iff in Hu. destruct Hu as [t [<- Ht]]. apply (IH t Ht); auto.
  intros x Hx. apply H. apply in_flat_map. eauto.
Qed.
Lemma tgood_fun f a : tgood (Fun f a) -> Forall tgood a.
Proof. intros H. apply Forall_forall. intros t Ht. apply (tgood_sub (Fun f a)); auto. simpl. right. apply in_flat_map. exists t. split; auto. destruct t; simpl; auto. Qed.


Lemma dkey_ok d : dgood d -> tgood (dkey d) /\ tgood (dother d) /\ tsort SS (dkey d) = tsort SS (dother d).
Proof.
  intros [[A [B [C [D F]]]] [[L R] _]]. unfold dkey, dother, tgood. destruct (dleft d); auto 10.
Qed.
Lemma dem_equal d s : dgood d -> wfsubst SS s -> eqG (Terms.app s (dkey d)) (Terms.app s (dother d)).
Proof.
  intros [_ [_ [P F]]] Ws M HM HT v Hv. pose proof (F M HM HT _ (respects_subst _ _ _ _ _ HM Hv Ws)) as H.
  inversion H as [? ? Z|? ? Z]; [|inversion Z]. unfold holds, lit_holds in Z. rewrite P in Z.
  rewrite !eval_app. unfold dkey, dother. destruct (dleft d); auto.
Qed.

(** bindings to good terms *)
Definition bgood (st : bstate) : Prop := wfbinding SS (bnd st) /\ forall x t, bnd st x = Some t -> tgood t.
Lemma bgood_wf st : bgood st -> wfsubst SS (as_subst (bnd st)). Proof. intros [A _]. apply as_subst_wf; auto. Qed.
Lemma inst1_good st t : bgood st -> tgood t -> tgood (inst1 st t).
Proof.
  intros B T. apply tgood_app; auto; [apply bgood_wf; auto|]. intros x Hx. unfold as_subst. destruct (bnd st x) as [u|] eqn:Q; [apply (proj2 B x u Q)|].
  destruct T as [_ [P _]]. split; [reflexivity|]. split; [|apply sok_var]. intros y [<-|[]]. auto.
Qed.
Lemma match_bgood m t st : tgood m -> tgood t -> smatch (S (size m)) SS (pp E) no_bindings m t = Success st ->
  bgood st /\ inst1 st m = t /\ forall x, In x (vars m) -> bnd st x <> None.
Proof.
  intros Gm Gt H. destruct (match_facts SS (pp E) m t st (proj1 Gm) (proj1 Gt) H) as [W [Q [D [_ B]]]]. split; [split; auto|split; auto].
  - intros x u Hx. apply (tgood_sub t); auto. rewrite <- Q. pose proof (app_var_subterm (as_subst (bnd st)) m x) as X. unfold as_subst in X at 1. rewrite Hx in X. apply X.
    apply D. congruence.
  - intros x Hx. apply D. auto.
Qed.
Lemma min_bgood : strong = true -> forall vs st, bgood st ->
  let st' := fold_left (fun st x => match bnd st x with
                         | Some _ => st
                         | None => {| bnd := upd (bnd st) x (Some (minterm (vsort SS x))); trail := x :: trail st |}
                         end) vs st in
  bgood st' /\ (forall x, bnd st x <> None -> bnd st' x = bnd st x).
Proof.
  intros HST. induction vs as [|x vs IH]; intros st B; cbn [fold_left]; [split; auto|].
  destruct (bnd st x) as [u|] eqn:Hx; [apply IH; auto|].
  set (st1 := {| bnd := upd (bnd st) x (Some (minterm (vsort SS x))); trail := x :: trail st |}).
  destruct (HMin HST x) as [M1 M2].
  assert (B1 : bgood st1).
  { split; intros y t; unfold st1, upd; simpl; destruct (Nat.eqb_spec x y) as [->|NE].
    - intros [= <-]. split; auto. apply M1.
    - apply B.
    - intros [= <-]. auto.
    - apply B. }
  destruct (IH st1 B1) as [I1 I2]. split; auto. intros y Hy. rewrite I2; unfold st1, upd; simpl; destruct (Nat.eqb_spec x y) as [->|NE]; congruence.
Qed.
Lemma rule_bgood l r st st' : bgood st -> (forall x, In x (vars l) -> bnd st x <> None) -> instance_is_rule E gtb strong minterm l r st = Some st' ->
  bgood st' /\ inst1 st' l = inst1 st l.
Proof.
  intros B HD. unfold instance_is_rule. set (st1 := if strong then complete_min E minterm st r else st).
  assert (X : bgood st1 /\ inst1 st1 l = inst1 st l).
  { unfold st1. destruct (bool_dec strong true) as [HST|HST]; [rewrite HST|apply not_true_is_false in HST; rewrite HST; auto]. unfold complete_min.
    destruct (min_bgood HST (vars r) st B) as [I1 I2]. split; auto. unfold inst1. apply app_ext. intros x Hx. unfold as_subst. rewrite I2; auto. }
  destruct (negb strong && has_unbound st1 r); [discriminate|]. destruct (is_renaming st1); [discriminate|]. destruct (gtb _ _); [|discriminate].
  intros [= <-]. auto.
Qed.
Lemma step_link d t st : dgood d -> tgood t -> bgood st -> inst1 st (dkey d) = t -> link_ok t (inst1 st (dother d)).
Proof.
  intros D T B Q. destruct (dkey_ok d D) as [K1 [K2 K3]]. split; auto. split; [apply inst1_good; auto|].
  pose proof (bgood_wf st B) as W. split.
  - rewrite <- Q. unfold inst1. rewrite !app_sort by auto. auto.
  - rewrite <- Q. apply dem_equal; auto.
Qed.
Lemma try_link r d t u : dgood d -> tgood t -> try_demod E gtb strong minterm r d t = Some u -> link_ok t u.
Proof.
  intros D T. destruct (dkey_ok d D) as [K1 _]. unfold try_demod. destruct (smatch _ _ _ _ _ _) as [st|st| |] eqn:HM; try discriminate.
  destruct (match_bgood _ _ _ K1 T HM) as [B [Q DM]].
  assert (R : forall st', instance_is_rule E gtb strong minterm (dkey d) (dother d) st = Some st' -> link_ok t (inst1 st' (dother d))).
  { intros st' H. destruct (rule_bgood _ _ _ _ B DM H) as [B' Q']. apply step_link; auto. congruence. }
  destruct (dleft d).
  - destruct (ori (dlit d)).
    + destruct (negb r || _); [|discriminate]. intros [= <-]. apply step_link; auto.
    + destruct (instance_is_rule _ _ _ _ _ _ _) as [st'|]; [|discriminate]. destruct (negb r || _); [|discriminate]. intros [= <-]. auto.
  - destruct (instance_is_rule _ _ _ _ _ _ _) as [st'|]; [|discriminate]. intros [= <-]. auto.
Qed.
Lemma backward_links W d t : links_ok W -> dgood d -> tgood t -> links_ok (backward_link E gtb strong minterm W d t).
Proof.
  intros HW D T. destruct (dkey_ok d D) as [K1 _]. unfold backward_link. destruct (smatch _ _ _ _ _ _) as [st|st| |] eqn:HM; auto.
  destruct (match_bgood _ _ _ K1 T HM) as [B [Q DM]].
  assert (R : forall st', (if ori (dlit d) then Some st else instance_is_rule E gtb strong minterm (dkey d) (dother d) st) = Some st' -> link_ok t (inst1 st' (dother d))).
  { intros st' H. destruct (ori (dlit d)); [injection H as <-; apply step_link; auto|]. destruct (rule_bgood _ _ _ _ B DM H) as [B' Q']. apply step_link; auto. congruence. }
  destruct (if ori (dlit d) then _ else _) as [st'|]; auto. destruct (_ || _); auto. destruct (term_eqb _ t); auto. apply links_add; auto.
Qed.

Definition lgood (e : eqn) : Prop := eqn_ok E e /\ lok N e.
Lemma lgood_sides e : lgood e <-> tgood (lt e) /\ tgood (rt e) /\ tsort SS (lt e) = tsort SS (rt e).
Proof. unfold lgood, eqn_ok, lok, tgood. tauto. Qed.

Section Run.
Variables (enum : nat -> term -> Z -> list dem) (sdate : nat -> Z) (full : bool).
Hypothesis HE : forall i t z d, In d (enum i t z) -> dgood d.

Lemma find_link c r t u ds : (forall d, In d ds -> dgood d) -> tgood t -> find_demod E gtb strong minterm c r t ds = Some u -> link_ok t u.
Proof.
  intros HD T. induction ds as [|d ds IH]; cbn [find_demod]; [discriminate|].
  assert (IH' := IH (fun d' Hd => HD d' (or_intror Hd))). destruct (negb _); auto.
  destruct (try_demod E gtb strong minterm r d t) as [w|] eqn:TD; auto. intros [= <-]. eapply try_link; eauto. apply HD. left; auto.
Qed.
Lemma set_links_ok W i t r : links_ok W -> tgood t ->
  links_ok (fst (rewrite_set E gtb strong minterm enum full W i t r)).
Proof.
  intros HW T. unfold rewrite_set. destruct (find_demod _ _ _ _ _ _ _ _) as [u|] eqn:F; auto. destruct (term_eqb u t); auto. apply links_add; auto.
  eapply find_link; [|exact T|exact F]. intros d Hd. eapply HE; eauto.
Qed.
Lemma list_links_ok W t r : links_ok W -> tgood t -> links_ok (fst (rewrite_list E gtb strong minterm enum sdate full W t r)).
Proof.
  intros HW T. unfold rewrite_list.
  assert (Y : links_ok (fst (if (nf_date (W t) full <? sdate 0)%Z then rewrite_set E gtb strong minterm enum full W 0 t r else (W, t)))).
  { destruct (_ <? _)%Z; auto. apply set_links_ok; auto. }
  destruct (if (nf_date (W t) full <? sdate 0)%Z then _ else _) as [W1 t1]. cbn [fst] in Y.
  destruct (_ || _); auto. destruct (_ <? _)%Z; auto. apply set_links_ok; auto.
Qed.
Lemma follow_link W r : links_ok W -> forall n t t', tgood t -> follow n W t r = Some t' -> link_ok t t'.
Proof.
  intros HW. induction n as [|n IH]; intros t t' T H; [discriminate|]. cbn [follow] in H. destruct (W t) as [u [|] rr|a b] eqn:Q; try (injection H as <-; apply link_refl; auto).
  destruct (_ || _); [|injection H as <-; apply link_refl; auto]. pose proof (HW t u _ _ Q) as L. eapply link_trans; [exact L|]. apply IH; auto. apply L.
Qed.
Lemma finish_links W t r : links_ok W -> links_ok (finish_nf sdate full W t r).
Proof. intros HW. unfold finish_nf. destruct (W t); auto. destruct r; auto. apply links_set; auto. discriminate. Qed.
Lemma args_link f a a' : tgood (Fun f a) -> Forall2 link_ok a a' -> link_ok (Fun f a) (Fun f a').
Proof.
  intros T H. split; auto.
  assert (EV : eqG (Fun f a) (Fun f a')).
  { intros M HM HT v Hv. simpl. f_equal. clear T. induction H as [|t u a a' L H IH]; simpl; auto. destruct L as [_ [_ [_ L]]]. rewrite (L M HM HT v Hv), IH. auto. }
  assert (SR : map (tsort SS) a' = map (tsort SS) a).
  { clear T EV. induction H as [|t u a a' L H IH]; simpl; auto. destruct L as [_ [_ [L _]]]. rewrite L, IH. auto. }
  assert (GA : Forall tgood a').
  { clear - H. induction H as [|t u a a' L H IH]; constructor; auto. apply L. }
  split; [|split; auto]. destruct T as [A [B C]]. apply sok_fun in C. destruct C as [C1 C2]. split; [|split].
  - apply wf_fun in A. destruct A as [W1 W2]. apply wf_fun. split; [|congruence]. eapply Forall_impl; [|exact GA]. intros t Ht; apply Ht.
  - intros x Hx. simpl in Hx. apply in_flat_map in Hx. destruct Hx as [t [Ht Hx]]. rewrite Forall_forall in GA. apply (GA t Ht); auto.
  - apply sok_fun. split; auto. eapply Forall_impl; [|exact GA]. intros t Ht; apply Ht.
Qed.
Lemma run_links : forall n W j W' t', links_ok W -> tgood (match j with JNorm t _ => t | JLoop t _ => t end) ->
  run E gtb strong minterm enum sdate full n W j = Some (W', t') -> links_ok W' /\ link_ok (match j with JNorm t _ => t | JLoop t _ => t end) t'.
Proof.
  induction n as [|n IH]; intros W j W' t' HW T H; [discriminate|]. cbn [run] in H. destruct j as [t r|t r].
  - destruct (follow n W t r) as [t1|] eqn:F; [|discriminate]. pose proof (follow_link W r HW n t t1 T F) as L.
    destruct (_ && _); [injection H as <- <-; auto|]. destruct t1 as [x|f a]; [injection H as <- <-; auto|].
    destruct (IH W (JLoop (Fun f a) r) W' t' HW (proj1 (proj2 L)) H) as [A B]. split; auto. eapply link_trans; eauto.
  - destruct t as [x|f args]; [injection H as <- <-; split; [apply finish_links; auto|apply link_refl; auto]|].
    destruct (norm_args _ W args) as [[W1 args']|] eqn:NA; [|discriminate].
    assert (X : links_ok W1 /\ Forall2 link_ok args args').
    { pose proof (tgood_fun _ _ T) as GA. clear T H. revert W W1 args' HW NA GA. induction args as [|a args IHa]; intros W W1 args' HW NA GA; cbn [norm_args] in NA.
      - injection NA as <- <-. split; auto.
      - destruct (run E gtb strong minterm enum sdate full n W (JNorm a false)) as [[W2 a']|] eqn:R; [|discriminate].
        inversion GA as [|? ? Ga Gs]; subst. destruct (IH W (JNorm a false) W2 a' HW Ga R) as [A B].
        match type of NA with match ?g with _ => _ end = _ => destruct g as [[W3 r3]|] eqn:NA' end; [|discriminate]. injection NA as <- <-.
        destruct (IHa W2 W3 r3 A NA' Gs) as [A' B']. split; auto. }
    destruct X as [H1 F2]. pose proof (args_link f _ _ T F2) as L. pose proof L as [_ [T1 _]].
    set (t1 := Fun f args') in *. set (md := negb (term_eqb t1 (Fun f args))) in *. cbv zeta in H.
    set (W2 := if md then add_link W1 (Fun f args) t1 false true else W1) in *.
    assert (H2 : links_ok W2) by (unfold W2; destruct md; auto; apply links_add; auto).
    set (W3 := if top_rewritten (W2 t1) then W2 else fst (rewrite_list E gtb strong minterm enum sdate full W2 t1 (r && negb md))) in *.
    assert (H3 : links_ok W3) by (unfold W3; destruct (top_rewritten (W2 t1)); auto; apply list_links_ok; auto).
    destruct (follow n W3 t1 (r && negb md)) as [t2|] eqn:F; [|discriminate]. pose proof (follow_link W3 _ H3 n t1 t2 T1 F) as L2.
    destruct (md || _).
    + destruct (IH W3 (JLoop t2 r) W' t' H3 (proj1 (proj2 L2)) H) as [A B]. split; auto. eapply link_trans; [exact L|]. eapply link_trans; eauto.
    + injection H as <- <-. split; [apply finish_links; auto|auto].
Qed.

Definition same_value (e e' : eqn) : Prop := forall M, model_ok SS (dist E) M -> (forall c, In c G -> clause_true SS M c) -> forall v, respects SS M v -> (holds M v e <-> holds M v e').

Lemma eqn_nf_links n W e lim W' e' mx : links_ok W -> lgood e -> eqn_nf E gtb strong minterm enum sdate full n W e lim = Some (W', e', mx) ->
  links_ok W' /\ lgood e' /\ same_value e e'.
Proof.
  intros HW HL H. apply lgood_sides in HL. destruct HL as [L [R S1]]. unfold eqn_nf in H. cbv zeta in H.
  match type of H with match ?g with _ => _ end = _ => destruct g as [[W1 l]|] eqn:H1 end; [|discriminate].
  match type of H with match ?g with _ => _ end = _ => destruct g as [[W2 r]|] eqn:H2 end; [|discriminate]. injection H as <- <- _.
  destruct (run_links n W (JNorm (lt e) _) W1 l HW L H1) as [A [_ [B1 [B2 B3]]]]. destruct (run_links n W1 (JNorm (rt e) _) W2 r A R H2) as [A' [_ [B1' [B2' B3']]]].
  split; auto. split; [apply lgood_sides; cbn [lt rt]; repeat split; try apply B1; try apply B1'; congruence|].
  intros M HM HT v Hv. unfold holds, lit_holds. cbn [lt rt pos]. rewrite (B3 M HM HT v Hv), (B3' M HM HT v Hv). tauto.
Qed.
Definition same_clause (c c' : clause) : Prop := forall M, model_ok SS (dist E) M -> (forall c, In c G -> clause_true SS M c) -> forall v, respects SS M v ->
  (Exists (holds M v) c <-> Exists (holds M v) c').
Lemma lits_nf_links n : forall c W lim W' c' lim', links_ok W -> Forall lgood c -> lits_nf E gtb strong minterm enum sdate full n W c lim = Some (W', c', lim') ->
  links_ok W' /\ Forall lgood c' /\ same_clause c c'.
Proof.
  induction c as [|e c IH]; intros W lim W' c' lim' HW HL H; cbn [lits_nf] in H.
  - injection H as <- <- <-. split; auto. split; auto. intros M _ _ v _. tauto.
  - inversion HL as [|? ? He Hc]; subst. destruct (eqn_nf _ _ _ _ _ _ _ n W e lim) as [[[W1 e'] mx]|] eqn:H1; [|discriminate].
    destruct (eqn_nf_links _ _ _ _ _ _ _ HW He H1) as [A [B C]].
    destruct (lits_nf _ _ _ _ _ _ _ n W1 c _) as [[[W2 c2] lim2]|] eqn:H2; [|discriminate]. injection H as <- <- <-.
    destruct (IH _ _ _ _ _ A Hc H2) as [A' [B' C']]. split; auto. split; auto. intros M HM HT v Hv. rewrite !Exists_cons, (C M HM HT v Hv), (C' M HM HT v Hv). tauto.
Qed.
Lemma clause_nf_links n c W lim W' c' lim' : links_ok W -> Forall lgood c -> clause_nf E gtb strong minterm enum sdate full n W c lim = Some (W', c', lim') ->
  links_ok W' /\ Forall lgood c' /\ same_clause c c'.
Proof.
  intros HW HL H. unfold clause_nf in H. destruct (lits_nf _ _ _ _ _ _ _ n W c lim) as [[[W1 c1] lim1]|] eqn:H1; [|discriminate].
  destruct (lits_nf_links _ _ _ _ _ _ _ HW HL H1) as [A [B C]]. destruct (lim && negb lim1); [|injection H as <- <- <-; auto].
  destruct (lits_nf_links _ _ _ _ _ _ _ A B H) as [A' [B' C']]. split; auto. split; auto. intros M HM HT v Hv. rewrite (C M HM HT v Hv). apply C'; auto.
Qed.
End Run.
End Rw.
