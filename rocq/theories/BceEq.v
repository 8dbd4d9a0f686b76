(** * Blocked clauses with equality: the tautology test justifies the elimination (C51). *)
From Coq Require Import Classical ClassicalEpsilon.
From Verif Require Import Terms Unify Semantics Clauses ClausesProofs Taut TautProofs Split Infer Bce BceFlip.
Local Open Scope nat_scope.

Section Copies.
Variables (E : env) (alt : var -> var).
Notation SS := (srt E).
Notation bool_sort := (fres SS true_code).
Hypotheses (HE : env_ok E) (HF : fo_sig E).

Lemma fo_atom e : fo_lit E e -> equlit e = false -> exists p l, lt e = Fun p l /\ rt e = ttrue /\ p <> true_code /\ p <> false_code.
Proof.
  unfold fo_lit. intros H Q. rewrite Q in H. destruct H as (p & l & A & B & C). exists p, l. split; auto. split; auto.
  unfold equlit in Q. apply negb_false_iff, term_eqb_eq in Q. exact Q.
Qed.
Lemma not_truth t : tsort SS t <> bool_sort -> t <> ttrue /\ t <> tfalse.
Proof. intros H. split; intros ->; apply H; cbn; auto. symmetry. apply (eo_tf _ HE). Qed.

Lemma alloc_id l r p : l <> tfalse -> r <> tfalse -> l <> ttrue ->
  lt (eqn_alloc E l r p) = l /\ rt (eqn_alloc E l r p) = r /\ pos (eqn_alloc E l r p) = p.
Proof.
  intros A B C. unfold eqn_alloc. rewrite (proj2 (term_eqb_neq l tfalse) A). rewrite (proj2 (term_eqb_neq r tfalse) B). rewrite (proj2 (term_eqb_neq l ttrue) C). auto.
Qed.
Lemma alloc_fo s e : (forall x, tsort SS (s x) = vsort SS x) -> fo_lit E e -> eqn_ok E e ->
  let h := eqn_alloc E (Terms.app s (lt e)) (Terms.app s (rt e)) (pos e) in
  lt h = Terms.app s (lt e) /\ rt h = Terms.app s (rt e) /\ pos h = pos e.
Proof.
  intros Hs FO (W1 & W2 & W3 & _). cbv zeta. destruct (equlit e) eqn:Q.
  - unfold fo_lit in FO. rewrite Q in FO. assert (AS : forall t, tsort SS (Terms.app s t) = tsort SS t) by (intros [x|f a]; cbn; auto).
    apply alloc_id; apply not_truth; rewrite AS; congruence.
  - destruct (fo_atom e FO Q) as (p & l & -> & -> & P1 & P2). cbn [Terms.app map]. apply alloc_id; intros A; try discriminate; injection A; auto.
Qed.

Lemma lit_copy_fo e : fo_lit E e -> eqn_ok E e -> lt (lit_copy E e) = lt e /\ rt (lit_copy E e) = rt e /\ pos (lit_copy E e) = pos e.
Proof.
  intros FO OK. destruct (alloc_fo Var e ltac:(auto) FO OK) as (A & B & C). rewrite !app_var in *. cbv zeta in *. unfold lit_copy. cbn [lt rt pos]. auto.
Qed.
Lemma lit_same_ok e e' : lt e' = lt e -> rt e' = rt e -> fo_lit E e -> eqn_ok E e -> fo_lit E e' /\ eqn_ok E e'.
Proof. intros A B. unfold fo_lit, eqn_ok, equlit. rewrite A, B. auto. Qed.

Variable base : var -> Prop.
Hypothesis HA : alt_ok E alt base.
Definition ren_alt : subst := fun x => Var (alt x).
Lemma ren_alt_wf : wfsubst SS ren_alt.
Proof. intros x. split; [apply (proj1 HA)|reflexivity]. Qed.

Lemma disjoint_fo e : fo_lit E e -> eqn_ok E e ->
  lt (disjoint_lit E alt e) = Terms.app ren_alt (lt e) /\ rt (disjoint_lit E alt e) = Terms.app ren_alt (rt e) /\ pos (disjoint_lit E alt e) = pos e.
Proof. intros FO OK. apply (alloc_fo ren_alt e); auto. intros x. apply (proj1 HA). Qed.
Lemma alt_primary t : primary (Terms.app ren_alt t).
Proof.
  intros x Hx. assert (exists y, x = alt y) as [y ->].
  { induction t as [z|f a IH] using term_ind'; cbn in Hx; [destruct Hx as [<-|[]]; eauto|]. apply in_flat_map in Hx. destruct Hx as [u [Hu Hx]].
    apply in_map_iff in Hu. destruct Hu as [w [<- Hw]]. rewrite Forall_forall in IH. eauto. }
  apply (proj1 (proj2 HA)).
Qed.
Lemma disjoint_ok e : fo_lit E e -> eqn_ok E e -> fo_lit E (disjoint_lit E alt e) /\ eqn_ok E (disjoint_lit E alt e).
Proof.
  intros FO OK. destruct (disjoint_fo e FO OK) as (A & B & C). pose proof OK as (W1 & W2 & W3 & W4 & W5).
  assert (AS : forall t, tsort SS (Terms.app ren_alt t) = tsort SS t) by (intros [x|f a]; cbn; [apply (proj1 HA)|auto]). split.
  - destruct (equlit e) eqn:Q.
    + unfold fo_lit in FO. rewrite Q in FO. unfold fo_lit.
      assert (equlit (disjoint_lit E alt e) = true).
      { unfold equlit. rewrite B. apply negb_true_iff, term_eqb_neq. apply not_truth. rewrite AS. congruence. }
      rewrite H, A, AS. auto.
    + destruct (fo_atom e FO Q) as (p & l & L & R & P). unfold fo_lit, equlit. rewrite A, B, L, R. cbn. eauto 8.
  - unfold eqn_ok. rewrite A, B, !AS. split; [apply app_wf; auto; apply ren_alt_wf|]. split; [apply app_wf; auto; apply ren_alt_wf|]. split; auto. split; apply alt_primary.
Qed.
Lemma equlit_disjoint e : fo_lit E e -> eqn_ok E e -> equlit (disjoint_lit E alt e) = equlit e.
Proof.
  intros FO OK. destruct (disjoint_fo e FO OK) as (A & B & C). pose proof OK as (W1 & W2 & W3 & _). unfold equlit at 1. rewrite B. destruct (equlit e) eqn:Q.
  - unfold fo_lit in FO. rewrite Q in FO. apply negb_true_iff, term_eqb_neq. apply not_truth.
    replace (tsort SS (Terms.app ren_alt (rt e))) with (tsort SS (rt e)); [congruence|]. destruct (rt e); cbn; auto. symmetry. apply (proj1 HA).
  - destruct (fo_atom e FO Q) as (p & l & L & R & P). rewrite R. reflexivity.
Qed.
Lemma except_map {A B} (f : A -> B) : forall l i, except i (map f l) = map f (except i l).
Proof. induction l as [|a l IH]; intros [|i]; cbn; auto. f_equal. auto. Qed.
Lemma nth_disjoint C j l : nth_error (disjoint E alt C) j = Some l -> exists e, nth_error C j = Some e /\ l = disjoint_lit E alt e.
Proof. unfold disjoint. rewrite nth_error_map. destruct (nth_error C j); cbn; [intros H; injection H as <-; eauto|discriminate]. Qed.

(** ** Changing a predicate *)
Definition setp (M : structure) (p : sym) (q : list (dom M) -> Prop) : structure := {|
  dom := dom M; isort := isort M;
  ifun := fun f ds => if Nat.eqb f p then (if excluded_middle_informative (q ds) then ifun M true_code [] else ifun M false_code []) else ifun M f ds |}.

Section Pred.
Variables (M : structure) (p : sym).
Hypotheses (HM : model_ok SS (dist E) M) (P1 : p <> true_code) (P2 : p <> false_code) (P3 : fres SS p = bool_sort).

Lemma set_other q f ds : f <> p -> ifun (setp M p q) f ds = ifun M f ds.
Proof. intros H. cbn. destruct (Nat.eqb_spec f p); congruence. Qed.
Lemma set_same q ds : ifun (setp M p q) p ds = ifun M true_code [] <-> q ds.
Proof.
  cbn. rewrite Nat.eqb_refl. destruct (excluded_middle_informative (q ds)) as [A|A]; split; auto; intros H.
  - destruct (mo_tf _ _ _ HM). auto.
  - contradiction.
Qed.
Lemma set_model q : model_ok SS (dist E) (setp M p q).
Proof.
  pose proof (set_other q true_code []) as T. pose proof (set_other q false_code []) as F. specialize (T ltac:(auto)). specialize (F ltac:(auto)).
  constructor; rewrite ?T, ?F.
  - intros f ds H. cbn. destruct (Nat.eqb_spec f p) as [->|N]; [|apply (mo_fun _ _ _ HM); auto]. rewrite P3.
    destruct (excluded_middle_informative (q ds)).
    + apply (mo_fun _ _ _ HM). rewrite (eo_true _ HE). constructor.
    + rewrite (eo_tf _ HE). apply (mo_fun _ _ _ HM). rewrite (eo_false _ HE). constructor.
  - apply (mo_inh _ _ _ HM).
  - apply (mo_bool _ _ _ HM).
  - apply (mo_tf _ _ _ HM).
  - apply (mo_dec _ _ _ HM).
  - intros f g Df Dg N. destruct HF as (_ & _ & D). pose proof (D f Df). pose proof (D g Dg). rewrite !set_other by congruence. apply (mo_dist _ _ _ HM); auto.
Qed.
Lemma set_eval q v t : wf SS t -> tsort SS t <> bool_sort -> eval (setp M p q) v t = eval M v t.
Proof.
  induction t as [x|f a IH] using term_ind'; intros W N; [reflexivity|]. cbn [eval]. cbn in N. rewrite set_other by congruence.
  f_equal. apply map_ext_in. intros u Hu. rewrite Forall_forall in IH. apply wf_fun in W. destruct W as [W1 W2]. rewrite Forall_forall in W1. apply IH; auto.
  apply (proj1 HF f). rewrite <- W2. apply in_map. auto.
Qed.
Lemma set_args q v f a : wf SS (Fun f a) -> map (eval (setp M p q) v) a = map (eval M v) a.
Proof.
  intros W. apply wf_fun in W. destruct W as [W1 W2]. rewrite Forall_forall in W1. apply map_ext_in. intros u Hu. apply set_eval; auto.
  apply (proj1 HF f). rewrite <- W2. apply in_map. auto.
Qed.

(** literals under a valuation *)
Definition gl (v : var -> dom M) (e : eqn) : glit :=
  match lt e with
  | Fun f a => if negb (equlit e) && Nat.eqb f p then GP (pos e) (map (eval M v) a) else GO (holds M v e)
  | Var _ => GO (holds M v e)
  end.
Lemma gl_holds q v e : fo_lit E e -> eqn_ok E e -> (holds (setp M p q) v e <-> gtrue q (gl v e)).
Proof.
  intros FO (W1 & W2 & W3 & _). unfold gl. destruct (equlit e) eqn:Q.
  - unfold fo_lit in FO. rewrite Q in FO. assert (holds (setp M p q) v e <-> holds M v e).
    { unfold holds, lit_holds. rewrite !(set_eval q v) by (auto; congruence). reflexivity. }
    cbn [negb andb]. destruct (lt e); cbn [gtrue]; auto.
  - destruct (fo_atom e FO Q) as (f & a & L & R & F1 & F2). rewrite L. cbn [negb andb]. unfold holds, lit_holds. rewrite L, R.
    assert (T : ifun (setp M p q) true_code [] = ifun M true_code []) by (apply set_other; auto).
    cbn [eval map ttrue]. rewrite (set_args q v f a) by (rewrite <- L; auto).
    destruct (Nat.eqb_spec f p) as [->|N]; cbn [gtrue].
    + pose proof (set_same q (map (eval M v) a)) as SS1. rewrite T. destruct (pos e); tauto.
    + rewrite (set_other q f) by auto. rewrite T. reflexivity.
Qed.

(** ** One elimination *)
Variables (eno : term -> Z) (max_neg n : nat) (C : clause) (j : nat) (L : eqn) (la : list term) (Others : list clause).
Hypotheses (EI : forall s t, eno s = eno t -> s = t) (CO : clause_ok E C) (CF : fo_clause E C) (CB : over base C) (NL : nth_error C j = Some L)
  (QL : equlit L = false) (LL : lt L = Fun p la)
  (OO : Forall (clause_ok E) Others) (OF : Forall (fo_clause E) Others) (OB : Forall (over base) Others)
  (CH : forall D, In D Others -> check E alt eno max_neg n true C j D = Some true \/ forall e a, In e D -> equlit e = false -> lt e = Fun p a -> pos e = pos L).

Definition q0 : list (dom M) -> Prop := fun ds => ifun M p ds = ifun M true_code [].
Definition CI (x : list (dom M)) (r : list glit) : Prop := exists v, respects SS M v /\ x = map (eval M v) la /\ r = map (gl v) (except j C).
Definition DI (d : list glit) : Prop := exists D v, In D Others /\ respects SS M v /\ d = map (gl v) D.

Lemma gl_q0 v e : respects SS M v -> fo_lit E e -> eqn_ok E e -> (holds M v e <-> gtrue q0 (gl v e)).
Proof.
  intros Hv FO (W1 & W2 & W3 & _). unfold gl. destruct (equlit e) eqn:Q.
  - cbn [negb andb]. destruct (lt e); cbn [gtrue]; reflexivity.
  - destruct (fo_atom e FO Q) as (f & a & L1 & R & F1 & F2). rewrite L1. cbn [negb andb]. destruct (Nat.eqb_spec f p) as [->|N]; [|reflexivity].
    unfold holds, lit_holds. rewrite L1, R. cbn [eval map ttrue]. unfold q0. destruct (pos e); reflexivity.
Qed.

(** a valuation of the variables of both clauses *)
Lemma merge (vC vD : var -> dom M) : respects SS M vC -> respects SS M vD ->
  exists w, respects SS M w /\ (forall x, base x -> w x = vD x) /\ (forall x, w (alt x) = vC x).
Proof.
  intros RC RD. destruct HA as (A1 & A2 & A3 & A4).
  assert (H : forall y, exists d, isort M (vsort SS y) d /\ (base y -> d = vD y) /\ (forall x, alt x = y -> d = vC x)).
  { intros y. destruct (classic (base y)) as [B|B].
    - exists (vD y). split; [apply RD|]. split; auto. intros x <-. destruct (A3 x B).
    - destruct (classic (exists x, alt x = y)) as [[x <-]|N].
      + exists (vC x). split; [rewrite A1; apply RC|]. split; [tauto|]. intros x' H. apply A4 in H. congruence.
      + exists (vD y). split; [apply RD|]. split; auto. intros x <-. destruct N. eauto. }
  exists (fun y => proj1_sig (constructive_indefinite_description _ (H y))). split; [|split].
  - intros y. destruct (constructive_indefinite_description _ (H y)) as [d (D1 & D2 & D3)]. exact D1.
  - intros y By. destruct (constructive_indefinite_description _ (H y)) as [d (D1 & D2 & D3)]. auto.
  - intros x. destruct (constructive_indefinite_description _ (H (alt x))) as [d (D1 & D2 & D3)]. cbn. auto.
Qed.

Lemma holds_same (M' : structure) v e e' : lt e' = lt e -> rt e' = rt e -> pos e' = pos e -> (holds M' v e' <-> holds M' v e).
Proof. unfold holds. intros -> -> ->. reflexivity. Qed.
Lemma ren_eval (M' : structure) (w vC : var -> dom M') t : (forall x, w (alt x) = vC x) -> eval M' w (Terms.app ren_alt t) = eval M' vC t.
Proof. intros H. rewrite eval_app. apply eval_ext. intros x _. cbn. auto. Qed.

Lemma forallo_in {A} (f : A -> option bool) l : forallo f l = Some true -> forall a, In a l -> f a = Some true.
Proof.
  induction l as [|b l IH]; intros H a Ha; [destruct Ha|]. cbn in H. destruct (f b) as [[|]|] eqn:FB; try discriminate. destruct Ha as [<-|Ha]; auto.
Qed.

Lemma eq_step k q : (forall d, DI d -> Exists (gtrue q) d) -> forall d, DI d -> Exists (gtrue (flip (pos L) CI (fun _ _ => True) q k)) d.
Proof.
  intros HQ d Hd. pose proof (HQ d Hd) as HT. destruct Hd as (D & vD & ID & RD & ->).
  set (q' := flip (pos L) CI (fun _ _ => True) q k).
  rewrite Forall_forall in OO, OF, OB. pose proof (OO D ID) as DO. pose proof (OF D ID) as DF. pose proof (OB D ID) as DB. clear OO OF OB.
  unfold clause_ok in DO, CO. unfold fo_clause in DF, CF. rewrite Forall_forall in DO, DF, CO, CF.
  (** literals that are not opposite to L survive *)
  assert (KEEP : forall e, In e D -> gtrue q (gl vD e) -> (forall a, equlit e = false -> lt e = Fun p a -> pos e = pos L) -> gtrue q' (gl vD e)).
  { intros e Ie G K. unfold gl in *. destruct (lt e) as [x|f a] eqn:Le; [exact G|]. destruct (equlit e) eqn:Q; [exact G|]. cbn [negb andb] in *.
    destruct (Nat.eqb_spec f p) as [->|N]; [|exact G]. rewrite (K a eq_refl eq_refl) in *. apply flip_keeps. exact G. }
  apply Exists_exists in HT. destruct HT as [g [Ig G]]. apply in_map_iff in Ig. destruct Ig as [e [<- Ie]].
  apply Exists_exists.
  destruct (classic (gtrue q' (gl vD e))) as [G'|G']; [exists (gl vD e); split; [apply in_map|]; auto|].
  (** so a literal opposite to L was made false, by an instance of the clause that was false *)
  destruct (lt e) as [x|f a] eqn:Le; [unfold gl in *; rewrite Le in *; contradiction|].
  destruct (equlit e) eqn:Q; [unfold gl in *; rewrite Le, Q in *; contradiction|].
  destruct (Nat.eqb_spec f p) as [->|N]; [|exfalso; apply G'; apply KEEP; auto; intros a' _ A; congruence].
  destruct (Bool.bool_dec (pos e) (pos L)) as [PE|PE]; [exfalso; apply G'; apply KEEP; auto|].
  destruct (CH D ID) as [CHK|NO]; [|destruct PE; eapply NO; eauto].
  assert (GE : forall qq, gl vD e = GP (pos e) (map (eval M vD) a) /\ (gtrue qq (gl vD e) <-> gtrue qq (GP (pos e) (map (eval M vD) a)))).
  { intros qq. unfold gl. rewrite Le, Q, Nat.eqb_refl. cbn [negb andb]. split; reflexivity. }
  assert (W : wants CI (fun _ _ => True) q k (map (eval M vD) a)).
  { apply NNPP. intros NW. apply G'. apply (proj2 (proj2 (GE q'))). apply (proj1 (proj2 (GE q))) in G.
    pose proof (flip_same (pos L) CI (fun _ _ => True) q k _ NW) as FS. fold q' in FS. unfold gtrue in *. destruct (pos e); tauto. }
  destruct W as [_ [r [(vC & RC & Ex & ->) FR]]].
  destruct (merge vC vD RC RD) as [w [RW [WD WC]]].
  (** the flat resolvent is true in the current interpretation *)
  unfold check in CHK. destruct (nth_error (disjoint E alt C) j) as [l|] eqn:Nl; [|discriminate].
  destruct (nth_disjoint C j l Nl) as [L' [NL' ->]]. rewrite NL in NL'. injection NL' as <-.
  assert (IL : In L C) by (eapply nth_error_In; eauto).
  destruct (disjoint_fo L (CF L IL) (CO L IL)) as (DL1 & DL2 & DL3). destruct (disjoint_ok L (CF L IL) (CO L IL)) as (DLF & DLO).
  set (l := disjoint_lit E alt L) in *. rewrite LL in DL1. cbn [Terms.app] in DL1.
  unfold check_eq in CHK. pose proof (forallo_in _ _ CHK e) as CE.
  assert (SH : same_head l e = true).
  { unfold same_head. rewrite Q, DL1, Le, Nat.eqb_refl, DL3, andb_true_r, andb_true_r. apply negb_true_iff. apply Bool.eqb_false_iff. auto. }
  specialize (CE ltac:(rewrite <- in_rev; apply filter_In; auto)). cbv beta in CE.
  set (R := flat_resolvent E (disjoint E alt C) j l e D) in *.
  destruct (clause_is_tautology eno max_neg E n R) as [bb| |] eqn:TA; try discriminate. injection CE as ->.
  pose proof (DO e Ie) as OKe. destruct OKe as (We & We' & We'' & Pe & Pe'). pose proof (CO L IL) as (WL & _ & _ & PL & _).
  destruct DLO as (Wl & _ & _ & Pl & _).
  rewrite Le in We, Pe. rewrite DL1 in Wl, Pl.
  assert (COND : forall x, In x (map (fun '(a, b) => eqn_alloc E a b false) (combine (args (lt e)) (args (lt l)))) ->
     exists s t, x = eqn_alloc E s t false /\ wf SS s /\ wf SS t /\ tsort SS s = tsort SS t /\ primary s /\ primary t /\ eval M w s = eval M w t
       /\ tsort SS s <> bool_sort).
  { intros x Hx. apply in_map_iff in Hx. destruct Hx as [[s t] [<- Hst]]. rewrite Le, DL1 in Hst. cbn [args] in Hst.
    exists s, t. split; auto. pose proof We as We2. pose proof Wl as Wl2. apply wf_fun in We2, Wl2. destruct We2 as [X1 X2], Wl2 as [Y1 Y2].
    rewrite Forall_forall in X1, Y1. pose proof (in_combine_l _ _ _ _ Hst) as Is. pose proof (in_combine_r _ _ _ _ Hst) as It.
    split; auto. split; auto. split.
    { assert (XX : map (tsort SS) a = map (tsort SS) (map (Terms.app ren_alt) la)) by congruence. clear - Hst XX. revert XX Hst. generalize (map (Terms.app ren_alt) la) as l2.
      induction a as [|y a IH]; intros [|z l2]; cbn; try tauto; try discriminate. intros H [Hst|Hst]; injection H as H1 H2; [congruence|eauto]. }
    split; [intros y Hy; apply Pe; cbn; apply in_flat_map; eauto|]. split; [intros y Hy; apply Pl; cbn; apply in_flat_map; eauto|]. split.
    - assert (EE : map (eval M w) a = map (eval M w) (map (Terms.app ren_alt) la)).
      { rewrite map_map. rewrite (map_ext (fun x => eval M w (Terms.app ren_alt x)) (eval M vC)) by (intros u; apply ren_eval; auto). rewrite <- Ex.
        apply map_ext_in. intros u Hu. apply eval_ext. intros y Hy. apply WD. apply (DB e); auto. apply in_app_iff. left. rewrite Le. cbn. apply in_flat_map. eauto. }
      clear - Hst EE. revert EE Hst. generalize (map (Terms.app ren_alt) la) as l2.
      induction a as [|y a IH]; intros [|z l2]; cbn; try tauto; try discriminate. intros H [Hst|Hst]; injection H as H1 H2; [congruence|eauto].
    - apply (proj1 HF p). rewrite <- X2. apply in_map. auto. }
  assert (REST : forall x, In x (map (lit_copy E) (except j (disjoint E alt C))) -> exists e0, In e0 C /\ In e0 (except j C) /\ lt x = Terms.app ren_alt (lt e0)
     /\ rt x = Terms.app ren_alt (rt e0) /\ pos x = pos e0 /\ eqn_ok E x).
  { intros x Hx. unfold disjoint in Hx. rewrite except_map, map_map in Hx. apply in_map_iff in Hx. destruct Hx as [e0 [<- I0]].
    pose proof (except_in _ _ _ I0) as I1. exists e0. split; auto. split; auto. destruct (disjoint_fo e0 (CF e0 I1) (CO e0 I1)) as (X1 & X2 & X3).
    destruct (disjoint_ok e0 (CF e0 I1) (CO e0 I1)) as (X4 & X5). destruct (lit_copy_fo _ X4 X5) as (Y1 & Y2 & Y3). rewrite Y1, Y2, Y3, X1, X2, X3.
    split; auto. split; auto. split; auto. eapply lit_same_ok; eauto. }
  assert (OTH : forall x, In x (map (lit_copy E) (rev (map (lit_copy E) (filter (fun y => negb (same_head l y)) D)))) ->
     exists e0, In e0 D /\ same_head l e0 = false /\ lt x = lt e0 /\ rt x = rt e0 /\ pos x = pos e0 /\ eqn_ok E x).
  { intros x Hx. rewrite map_rev, <- in_rev, map_map in Hx. apply in_map_iff in Hx. destruct Hx as [e0 [<- I0]]. apply filter_In in I0. destruct I0 as [I0 S0].
    apply negb_true_iff in S0. exists e0. split; auto. split; auto. destruct (lit_copy_fo e0 (DF e0 I0) (DO e0 I0)) as (X1 & X2 & X3).
    destruct (lit_same_ok e0 (lit_copy E e0) X1 X2 (DF e0 I0) (DO e0 I0)) as [X4 X5]. destruct (lit_copy_fo _ X4 X5) as (Y1 & Y2 & Y3).
    rewrite Y1, Y2, Y3, X1, X2, X3. split; auto. split; auto. split; auto. eapply lit_same_ok; eauto. }
  assert (RI : forall x, In x R <-> In x (map (fun '(a, b) => eqn_alloc E a b false) (combine (args (lt e)) (args (lt l))))
     \/ In x (map (lit_copy E) (except j (disjoint E alt C))) \/ In x (map (lit_copy E) (rev (map (lit_copy E) (filter (fun y => negb (same_head l y)) D))))).
  { intros x. unfold R, flat_resolvent. rewrite clause_alloc_in, !in_app_iff, <- in_rev. tauto. }
  assert (ROK : clause_ok E R).
  { apply Forall_forall. intros x Hx. apply RI in Hx. destruct Hx as [Hx|[Hx|Hx]].
    - destruct (COND x Hx) as (s & t & -> & A1 & A2 & A3 & A4 & A5 & _). apply eqn_alloc_ok; auto.
    - destruct (REST x Hx) as (e0 & _ & _ & _ & _ & _ & X). exact X.
    - destruct (OTH x Hx) as (e0 & _ & _ & _ & _ & _ & X). exact X. }
  pose proof (tautology_sound eno E max_neg n R HE ROK ltac:(intros ? ? ? ? _ _ _ _; apply EI) TA) as TR.
  specialize (TR (setp M p q) (set_model q) ltac:(intros ? []) w RW). apply Exists_exists in TR. destruct TR as [x [Ix Hx]]. apply RI in Ix.
  destruct Ix as [Ix|[Ix|Ix]].
  - exfalso. destruct (COND x Ix) as (s & t & -> & A1 & A2 & A3 & A4 & A5 & A6 & A7).
    apply (eqn_alloc_holds E (setp M p q) HE (set_model q) w s t false RW A1 A2 A3) in Hx. apply Hx. rewrite !set_eval by (auto; congruence). exact A6.
  - exfalso. destruct (REST x Ix) as (e0 & I1 & I0 & X1 & X2 & X3 & _). apply FR. apply Exists_exists. exists (gl vC e0). split; [apply in_map; auto|].
    apply gl_holds; auto. unfold holds in *. rewrite X1, X2, X3 in Hx. unfold lit_holds in *. rewrite !(ren_eval (setp M p q) w vC _ WC) in Hx. exact Hx.
  - destruct (OTH x Ix) as (e0 & I0 & SH0 & X1 & X2 & X3 & _). exists (gl vD e0). split; [apply in_map; auto|].
    apply KEEP; auto.
    + apply gl_holds; auto. unfold holds in *. rewrite X1, X2, X3 in Hx. unfold lit_holds in *.
      rewrite !(eval_ext (setp M p q) w vD) in Hx; [exact Hx| |]; intros y Hy; apply WD; apply (DB e0); auto; apply in_app_iff; auto.
    + intros a0 Q0 L0. unfold same_head in SH0. rewrite Q0, DL1, L0, Nat.eqb_refl, DL3, andb_true_r, andb_true_r in SH0. apply negb_false_iff in SH0. apply Bool.eqb_prop in SH0. auto.
Qed.

Theorem eq_blocked : satisfied E M Others -> exists q, satisfied E (setp M p q) (C :: Others).
Proof.
  intros HS. pose proof OO as OO1. pose proof OF as OF1. rewrite Forall_forall in OO1, OF1. unfold clause_ok in OO1. unfold fo_clause in OF1.
  destruct (flip_limit (pos L) CI DI (fun _ _ => True) q0) as [A B].
  - intros d (D & v & ID & Rv & ->). specialize (HS D ID v Rv). rewrite Exists_exists in *. destruct HS as [e [Ie He]]. exists (gl v e). split; [apply in_map; auto|].
    pose proof (OO1 D ID) as X1. pose proof (OF1 D ID) as X2. rewrite Forall_forall in X1, X2. apply gl_q0; auto.
  - intros k q. apply eq_step.
  - intros x m. exists m. auto.
  - exists (lim (pos L) CI (fun _ _ => True) q0). intros D [<-|ID] v Rv.
    + specialize (B (map (eval M v) la) (map (gl v) (except j C)) ltac:(exists v; auto)). destruct (except_split C j L NL) as (l1 & l2 & EC & EX & _).
      pose proof CO as CO1. pose proof CF as CF1. unfold clause_ok, fo_clause in CO1, CF1. rewrite Forall_forall in CO1, CF1.
      inversion B as [g l' G|g l' G]; subst.
      * apply Exists_exists. exists L. assert (IL : In L C) by (eapply nth_error_In; eauto). split; auto. apply gl_holds; auto. unfold gl. rewrite LL, QL, Nat.eqb_refl. exact G.
      * apply Exists_exists in G. destruct G as [g [Ig G]]. apply in_map_iff in Ig. destruct Ig as [e [<- Ie]]. apply Exists_exists. exists e.
        pose proof (except_in _ _ _ Ie). split; auto. apply gl_holds; auto.
    + specialize (A (map (gl v) D) ltac:(exists D, v; auto)). apply Exists_exists in A. destruct A as [g [Ig G]]. apply in_map_iff in Ig. destruct Ig as [e [<- Ie]].
      apply Exists_exists. exists e. split; auto. pose proof (OO1 D ID) as X1. pose proof (OF1 D ID) as X2. rewrite Forall_forall in X1, X2. apply gl_holds; auto.
Qed.
End Pred.
End Copies.
