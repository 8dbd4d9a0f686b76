(** * Blocked clauses without equality: the syntactic test justifies the elimination in term interpretations (C51). *)
From Coq Require Import Classical ClassicalEpsilon Cantor.
From Verif Require Import Terms Unify UnifyProofs MatchProofs Semantics Clauses ClausesProofs Taut Split Infer InferProofs Bce BceFlip BceEq UnfoldProps.
Local Open Scope nat_scope.

(** ** Codes of terms *)
Definition code (t : term) : nat := Z.to_nat (eno49 t).
Lemma code_inj s t : code s = code t -> s = t.
Proof.
  unfold code, eno49. intros H. apply Z2Nat.inj in H; try lia. injection H as H. apply pair49_inj in H. apply (enum49_inj s t [] []). rewrite !app_nil_r. exact H.
Qed.
Definition turn (n : nat) (t : term) : Prop := fst (of_nat n) = code t.
Lemma turn_fair t m : exists n, m <= n /\ turn n t.
Proof.
  exists (to_nat (code t, m)). split; [pose proof (to_nat_non_decreasing (code t) m); lia|]. unfold turn. rewrite cancel_of_to. reflexivity.
Qed.
Lemma turn_unique n s t : turn n s -> turn n t -> s = t.
Proof. unfold turn. intros A B. apply code_inj. congruence. Qed.

(** ** The checks *)
Lemma existso_true {A} (f : A -> option bool) l : existso f l = Some true -> exists a, In a l /\ f a = Some true.
Proof.
  induction l as [|a l IH]; intros H; [discriminate|]. cbn in H. destruct (f a) as [[|]|] eqn:F; try discriminate.
  - exists a. split; [left|]; auto.
  - destruct (IH H) as [b [I B]]. exists b. split; [right|]; auto.
Qed.
Lemma filtero_spec {A} (f : A -> option bool) : forall l r, filtero f l = Some r -> forall a, In a r <-> In a l /\ f a = Some true.
Proof.
  induction l as [|b l IH]; intros r H a; cbn in H.
  { injection H as <-. split; [intros []|intros [[] _]]. }
  destruct (f b) as [[|]|] eqn:F; destruct (filtero f l) as [r'|] eqn:R; try discriminate; injection H as <-; cbn [In]; rewrite (IH r' eq_refl a).
  - split; [intros [<-|[I B]]; auto|intros [[->|I] B]; auto].
  - split; [intros [I B]; auto|intros [[->|I] B]; auto; congruence].
Qed.

Section Term.
Variables (b : binding) (tau : subst).
Hypothesis HS : solves b tau.
Lemma struct_eq_sound : forall k s t, struct_eq k b s t = Some true -> Terms.app tau s = Terms.app tau t.
Proof.
  induction k as [|k IH]; intros s t H; [discriminate|]. cbn [struct_eq] in H.
  destruct (deref k b s) as [s'|] eqn:Ds; [|discriminate]. destruct (deref k b t) as [t'|] eqn:Dt; [|destruct s'; discriminate].
  rewrite (deref_app b tau HS _ _ _ Ds), (deref_app b tau HS _ _ _ Dt). clear s t Ds Dt.
  destruct s' as [x|f a], t' as [y|g c]; try discriminate.
  - injection H as H. apply Nat.eqb_eq in H. subst. reflexivity.
  - destruct (Nat.eqb_spec f g) as [->|]; [|discriminate]. cbn [Terms.app]. f_equal. revert c H.
    induction a as [|u a IHa]; intros [|w c] H; try discriminate; auto. destruct (struct_eq k b u w) as [[|]|] eqn:U; try discriminate.
    cbn [map]. f_equal; [apply IH; auto|apply IHa; auto].
Qed.
End Term.

Section Neq.
Variables (E : env) (n : nat).
Notation SS := (srt E).
Hypotheses (HFS : fo_sorts SS (pp E)).

(** an atom *)
Definition atom_lit (e : eqn) : Prop := wf SS (lt e) /\ rt e = ttrue.
Variables (P : list eqn) (j : nat) (l : eqn) (D : clause) (th : subst).
Notation rest := (except j P).
Hypotheses (AR : Forall atom_lit rest) (AD : Forall atom_lit D) (AL : atom_lit l) (WT : wfsubst SS th).
Definition inN (e : eqn) : Prop := pos e <> pos l /\ Terms.app th (lt e) = Terms.app th (lt l).
Definition comp_pair : Prop := exists e x, In e D /\ ~ inN e /\ In x rest /\ pos x <> pos e /\ Terms.app th (lt x) = Terms.app th (lt e).

Lemma equal_deref_sound b e1 e2 : solves b th -> atom_lit e1 -> atom_lit e2 -> equal_deref n b e1 e2 = Some true -> Terms.app th (lt e1) = Terms.app th (lt e2).
Proof.
  intros HS [_ R1] [_ R2]. unfold equal_deref, same_inst. rewrite R1, R2.
  destruct (struct_eq n b (lt e1) (lt e2)) as [[|]|] eqn:S1; cbn [both]; try discriminate.
  - intros _. apply (struct_eq_sound b th HS _ _ _ S1).
  - destruct (ori e1 && ori e2); [discriminate|].
    destruct (struct_eq n b (lt e1) ttrue) as [[|]|] eqn:S2; cbn [both]; try discriminate. intros S3.
    rewrite (struct_eq_sound b th HS _ _ _ S2). apply (struct_eq_sound b th HS _ _ _ S3).
Qed.
Lemma find_comp_sound b e : solves b th -> In e D -> find_comp n b rest e = Some true -> exists x, In x rest /\ pos x <> pos e /\ Terms.app th (lt x) = Terms.app th (lt e).
Proof.
  intros HS Ie H. apply existso_true in H. destruct H as [x [Ix H]]. destruct (Bool.eqb (pos x) (pos e)) eqn:B; [discriminate|]. apply Bool.eqb_false_iff in B.
  rewrite Forall_forall in AR, AD. exists x. split; auto. split; auto. apply (equal_deref_sound b x e); auto.
Qed.

Lemma split_spec : forall D' u r, incl D' D -> split_partner E n l D' = Some (u, r) ->
  (forall e, In e D' -> In e u \/ In e r) /\ incl u D' /\ incl r D' /\ forall e, In e r -> ~ inN e.
Proof.
  induction D' as [|e D' IH]; intros u r HI H; cbn in H.
  { injection H as <- <-. split; [intros e []|]. split; [intros e []|]. split; intros e []. }
  destruct (unifies E n l e) as [v|] eqn:U; [|discriminate]. destruct (split_partner E n l D') as [[u' r']|]; [|destruct v; discriminate].
  destruct (IH u' r' ltac:(intros x Hx; apply HI; right; auto) eq_refl) as (A & B & C & G).
  destruct v; injection H as <- <-.
  - split; [intros x [<-|Hx]; [left; left; auto|destruct (A x Hx); [left; right|right]; auto]|].
    split; [intros x [<-|Hx]; [left|right]; auto|]. split; [intros x Hx; right; auto|auto].
  - split; [intros x [<-|Hx]; [right; left; auto|destruct (A x Hx); [left|right; right]; auto]|].
    split; [intros x Hx; right; auto|]. split; [intros x [<-|Hx]; [left|right]; auto|].
    intros x [<-|Hx]; [|auto]. intros [N1 N2]. unfold unifies in U.
    assert (Ie : In e D) by (apply HI; left; auto). rewrite Forall_forall in AD. destruct (AD e Ie) as [We Re].
    replace (negb (Bool.eqb (pos l) (pos e)) && negb (equlit e)) with true in U.
    + pose proof (mgu_correct n SS (pp E) start (lt l) (lt e) (inv_empty _) (proj1 AL) We) as MC.
      destruct (mgu n SS (pp E) start (lt l) (lt e)); try discriminate. destruct MC as (_ & _ & MC). apply (MC HFS th WT); auto. intros ? ? X. discriminate.
    + symmetry. apply andb_true_iff. split; apply negb_true_iff; [apply Bool.eqb_false_iff; auto|]. unfold equlit. rewrite Re. reflexivity.
Qed.

Lemma unify_with_spec : forall es st, inv SS st -> solves (bnd st) th -> incl es D -> Forall inN es ->
  match unify_with E n l es st with
  | Some (Some st') => inv SS st' /\ solves (bnd st') th
  | Some None => False
  | None => True
  end.
Proof.
  induction es as [|e es IH]; intros st HI HS IN FN; cbn; [auto|]. inversion FN as [|? ? [N1 N2] FN']; subst.
  assert (Ie : In e D) by (apply IN; left; auto). rewrite Forall_forall in AD. destruct (AD e Ie) as [We _].
  pose proof (mgu_correct n SS (pp E) st (lt l) (lt e) HI (proj1 AL) We) as MC. destruct (mgu n SS (pp E) st (lt l) (lt e)) as [st'|st'| |]; auto.
  - destruct MC as (M1 & _ & M3). apply IH; auto; [apply M3; auto|intros x Hx; apply IN; right; auto].
  - destruct MC as (_ & _ & M3). apply (M3 HFS th WT HS). auto.
Qed.

Lemma pick_in u is e : In e (pick_lits u is) <-> exists i, In i is /\ nth_error u i = Some e.
Proof.
  unfold pick_lits. rewrite in_flat_map. split.
  - intros [i [Hi He]]. destruct (nth_error u i) as [e'|] eqn:N; [|destruct He]. destruct He as [<-|[]]. eauto.
  - intros [i [Hi He]]. exists i. rewrite He. split; [|left]; auto.
Qed.

Lemma lres_sound u r : incl u D -> incl r D -> (forall e, In e r -> ~ inN e) ->
  forall k proc st, inv SS st -> solves (bnd st) th -> lres_loop E n k rest l u r proc st = Some true -> comp_pair.
Proof.
  intros IU IR NR. induction k as [|k IH]; intros proc st HI HS H; [discriminate|]. cbn [lres_loop] in H.
  destruct (existso (find_comp n (bnd st) rest) r) as [[|]|] eqn:EX; try discriminate.
  - apply existso_true in EX. destruct EX as [e [Ie He]]. destruct (find_comp_sound _ e HS (IR e Ie) He) as (x & X1 & X2 & X3). exists e, x. auto 8.
  - destruct (Nat.eqb (length proc) (length u)); [discriminate|].
    destruct (filtero _ (seq 0 (length u))) as [new|] eqn:FI; [|discriminate].
    assert (FN : forall i, In i new -> forall e, nth_error u i = Some e -> exists x, In x rest /\ pos x <> pos e /\ Terms.app th (lt x) = Terms.app th (lt e)).
    { intros i Hi e He. apply (filtero_spec _ _ _ FI) in Hi. destruct Hi as [_ Hi]. destruct (existsb (Nat.eqb i) proc); [discriminate|].
      apply existso_true in Hi. destruct Hi as [e' [I' H']]. apply pick_in in I'. destruct I' as [i' [[<-|[]] N']]. rewrite He in N'. injection N' as <-.
      apply (find_comp_sound (bnd st)); auto. apply IU. eapply nth_error_In; eauto. }
    destruct new as [|i0 new0] eqn:EN; [discriminate|]. rewrite <- EN in *. clear EN i0 new0.
    destruct (classic (Forall inN (pick_lits u new))) as [AN|NN].
    + pose proof (unify_with_spec (pick_lits u new) st HI HS) as US.
      destruct (unify_with E n l (pick_lits u new) st) as [[st'|]|]; try discriminate.
      * destruct US as [U1 U2]; auto; [intros e He; apply pick_in in He; destruct He as [i [_ He]]; apply IU; eapply nth_error_In; eauto|]. eapply IH; eauto.
      * destruct US; auto. intros e He. apply pick_in in He. destruct He as [i [_ He]]. apply IU. eapply nth_error_In; eauto.
    + rewrite Forall_forall in NN. apply not_all_ex_not in NN. destruct NN as [e NN]. apply imply_to_and in NN. destruct NN as [Ie NN].
      apply pick_in in Ie. destruct Ie as [i [Hi Ni]]. destruct (FN i Hi e Ni) as (x & X1 & X2 & X3). exists e, x. split; [apply IU; eapply nth_error_In; eauto|]. auto.
Qed.

Lemma check_neq_sound : check_neq E n P j l D = Some true -> (exists e, In e D /\ inN e) -> comp_pair.
Proof.
  unfold check_neq. destruct (split_partner E n l D) as [[u r]|] eqn:SP; [|discriminate]. intros CH [e [Ie He]].
  destruct (split_spec D u r ltac:(intros x Hx; auto) SP) as (A & B & C & G). destruct (A e Ie) as [Iu|Ir]; [|destruct (G e Ir He)].
  apply In_nth_error in Iu. destruct Iu as [i Ni].
  pose proof (forallo_in _ _ CH i) as CI. specialize (CI ltac:(apply in_seq; assert (nth_error u i <> None) by congruence; apply nth_error_Some in H; lia)).
  unfold check_lres in CI.
  pose proof (unify_with_spec (pick_lits u [i]) start (inv_empty _) ltac:(intros ? ? X; discriminate)) as US.
  destruct (unify_with E n l (pick_lits u [i]) start) as [[st|]|]; try discriminate.
  destruct US as [U1 U2].
  - intros x Hx. apply pick_in in Hx. destruct Hx as [i' [_ Hx]]. apply B. eapply nth_error_In; eauto.
  - apply Forall_forall. intros x Hx. apply pick_in in Hx. destruct Hx as [i' [[<-|[]] Hx]]. rewrite Ni in Hx. injection Hx as <-. exact He.
  - apply (lres_sound u r B C G _ _ st U1 U2 CI).
Qed.
End Neq.

(** ** One elimination *)
Section Herbrand.
Variables (E : env) (alt : var -> var) (base : var -> Prop).
Notation SS := (srt E).
Hypotheses (HE : env_ok E) (HF : fo_sig E) (HFS : fo_sorts SS (pp E)) (HA : alt_ok E alt base).

(** [A]: the true atoms *)
Definition hlit (A : term -> Prop) (th : subst) (e : eqn) : Prop := if pos e then A (Terms.app th (lt e)) else ~ A (Terms.app th (lt e)).
Definition htrue (A : term -> Prop) (c : clause) : Prop := forall th, wfsubst SS th -> Exists (hlit A th) c.

Variables (eno : term -> Z) (max_neg n : nat) (C : clause) (j : nat) (L : eqn) (p : sym) (la : list term) (Others : list clause).
Hypotheses (CO : clause_ok E C) (CF : fo_clause E C) (CB : over base C) (NL : nth_error C j = Some L) (LL : lt L = Fun p la)
  (CQ : forall e, In e C -> equlit e = false) (OQ : forall D e, In D Others -> In e D -> equlit e = false)
  (OO : Forall (clause_ok E) Others) (OF : Forall (fo_clause E) Others) (OB : Forall (over base) Others)
  (CH : forall D, In D Others -> check E alt eno max_neg n false C j D = Some true \/ forall e a, In e D -> equlit e = false -> lt e = Fun p a -> pos e = pos L).

Definition hl (th : subst) (e : eqn) : glit := GP (pos e) (Terms.app th (lt e)).
Lemma hl_true A th e : gtrue A (hl th e) <-> hlit A th e.
Proof. unfold hl, hlit, gtrue. destruct (pos e); reflexivity. Qed.
Definition HCI (x : term) (r : list glit) : Prop := exists s, wfsubst SS s /\ x = Terms.app s (lt L) /\ r = map (hl s) (except j C).
Definition HDI (d : list glit) : Prop := exists D s, In D Others /\ wfsubst SS s /\ d = map (hl s) D.

Lemma merge_subst (sC sD : subst) : wfsubst SS sC -> wfsubst SS sD ->
  exists w, wfsubst SS w /\ (forall x, base x -> w x = sD x) /\ (forall x, w (alt x) = sC x).
Proof.
  intros RC RD. destruct HA as (A1 & A2 & A3 & A4).
  assert (H : forall y, exists d, (tsort SS d = vsort SS y /\ wf SS d) /\ (base y -> d = sD y) /\ (forall x, alt x = y -> d = sC x)).
  { intros y. destruct (classic (base y)) as [B|B].
    - exists (sD y). split; [apply RD|]. split; auto. intros x <-. destruct (A3 x B).
    - destruct (classic (exists x, alt x = y)) as [[x <-]|N].
      + exists (sC x). split; [rewrite A1; apply RC|]. split; [tauto|]. intros x' H. apply A4 in H. congruence.
      + exists (sD y). split; [apply RD|]. split; auto. intros x <-. destruct N. eauto. }
  exists (fun y => proj1_sig (constructive_indefinite_description _ (H y))). split; [|split].
  - intros y. destruct (constructive_indefinite_description _ (H y)) as [d (D1 & D2 & D3)]. exact D1.
  - intros y By. destruct (constructive_indefinite_description _ (H y)) as [d (D1 & D2 & D3)]. auto.
  - intros x. destruct (constructive_indefinite_description _ (H (alt x))) as [d (D1 & D2 & D3)]. cbn. auto.
Qed.
Lemma app_ext_in (s1 s2 : subst) t : (forall x, In x (vars t) -> s1 x = s2 x) -> Terms.app s1 t = Terms.app s2 t.
Proof.
  induction t as [x|f a IH] using term_ind'; intros H; cbn; [apply H; left; auto|]. f_equal. apply map_ext_in. intros u Hu. rewrite Forall_forall in IH. apply IH; auto.
  intros x Hx. apply H. cbn. apply in_flat_map. eauto.
Qed.
Lemma ren_app (w sC : subst) t : (forall x, w (alt x) = sC x) -> Terms.app w (Terms.app (ren_alt alt) t) = Terms.app sC t.
Proof.
  intros H. induction t as [x|f a IH] using term_ind'; cbn; [apply H|]. f_equal. rewrite map_map. apply map_ext_in. intros u Hu. rewrite Forall_forall in IH. auto.
Qed.

Lemma neq_step k q : (forall d, HDI d -> Exists (gtrue q) d) -> forall d, HDI d -> Exists (gtrue (flip (pos L) HCI turn q k)) d.
Proof.
  intros HQ d Hd. pose proof (HQ d Hd) as HT. destruct Hd as (D & sD & ID & RD & ->).
  set (q' := flip (pos L) HCI turn q k).
  rewrite Forall_forall in OO, OF, OB. pose proof (OO D ID) as DO. pose proof (OF D ID) as DF. pose proof (OB D ID) as DB. clear OO OF OB.
  unfold clause_ok in DO, CO. unfold fo_clause in DF, CF. rewrite Forall_forall in DO, DF, CO, CF.
  apply NNPP. intros NT.
  (** some literal was made false *)
  assert (KEEP : forall e, In e D -> gtrue q (hl sD e) -> pos e <> pos L /\ wants HCI turn q k (Terms.app sD (lt e))).
  { intros e Ie G. assert (NG : ~ gtrue q' (hl sD e)) by (intros A; apply NT; apply Exists_exists; exists (hl sD e); split; [apply in_map; auto|auto]). split.
    - intros A. apply NG. unfold hl in *. rewrite A in *. apply flip_keeps. exact G.
    - apply NNPP. intros NW. apply NG. pose proof (flip_same (pos L) HCI turn q k _ NW) as FS. fold q' in FS. unfold hl, gtrue in *. destruct (pos e); tauto. }
  apply Exists_exists in HT. destruct HT as [g [Ig G]]. apply in_map_iff in Ig. destruct Ig as [e [<- Ie]].
  destruct (KEEP e Ie G) as [PE [TE [r [(sC & RC & Ex & ->) FR]]]].
  destruct (CH D ID) as [CHK|NO].
  2:{ destruct (fo_atom E e (DF e Ie) (OQ D e ID Ie)) as (f & a & Le & _). rewrite Le, LL in Ex. injection Ex as -> _.
      destruct PE. apply (NO e a Ie (OQ D e ID Ie)). exact Le. }
  destruct (merge_subst sC sD RC RD) as [w [RW [WD WC]]].
  unfold check in CHK. destruct (nth_error (disjoint E alt C) j) as [l|] eqn:Nl; [|discriminate].
  destruct (nth_disjoint E alt C j l Nl) as [L' [NL' ->]]. rewrite NL in NL'. injection NL' as <-.
  assert (IL : In L C) by (eapply nth_error_In; eauto).
  destruct (disjoint_fo E alt HE base HA L (CF L IL) (CO L IL)) as (DL1 & DL2 & DL3). destruct (disjoint_ok E alt HE base HA L (CF L IL) (CO L IL)) as (_ & DLO).
  set (l := disjoint_lit E alt L) in *.
  assert (WDt : forall e0, In e0 D -> Terms.app w (lt e0) = Terms.app sD (lt e0)).
  { intros e0 I0. apply app_ext_in. intros x Hx. apply WD. apply (DB e0); auto. apply in_app_iff. auto. }
  assert (WL : Terms.app w (lt l) = Terms.app sC (lt L)) by (rewrite DL1; apply ren_app; auto).
  assert (RT : forall e0, equlit e0 = false -> rt e0 = ttrue) by (intros e0 Q; unfold equlit in Q; apply negb_false_iff, term_eqb_eq in Q; exact Q).
  destruct (check_neq_sound E n HFS (disjoint E alt C) j l D w) as (e1 & x & I1 & NN & Ix & Px & Ax); auto.
  - apply Forall_forall. intros x Hx. unfold disjoint in Hx. rewrite except_map in Hx. apply in_map_iff in Hx. destruct Hx as [e0 [<- I0]].
    apply except_in in I0. destruct (disjoint_ok E alt HE base HA e0 (CF e0 I0) (CO e0 I0)) as [_ (X1 & _)]. split; auto.
    apply RT. rewrite (equlit_disjoint E alt HE base HA); auto.
  - apply Forall_forall. intros e0 I0. split; [apply (DO e0 I0)|]. apply RT. eauto.
  - split; [apply DLO|]. apply RT. unfold l. rewrite (equlit_disjoint E alt HE base HA); auto.
  - exists e. split; auto. split; [rewrite DL3; auto|]. rewrite WL, WDt; auto.
  - unfold disjoint in Ix. rewrite except_map in Ix. apply in_map_iff in Ix. destruct Ix as [e0 [<- I0]]. pose proof (except_in _ _ _ I0) as I0'.
    destruct (disjoint_fo E alt HE base HA e0 (CF e0 I0') (CO e0 I0')) as (X1 & X2 & X3). rewrite X1, (ren_app w sC _ WC), (WDt e1 I1) in Ax. rewrite X3 in Px.
    assert (F0 : ~ gtrue q (hl sC e0)) by (intros A; apply FR; apply Exists_exists; exists (hl sC e0); split; [apply in_map; auto|auto]).
    assert (G1 : gtrue q (hl sD e1)).
    { unfold hl in *. rewrite <- Ax. replace (pos e1) with (negb (pos e0)) by (destruct (pos e0), (pos e1); auto; congruence). apply gneg. exact F0. }
    destruct (KEEP e1 I1 G1) as [PE1 [TE1 _]]. apply NN. split; [rewrite DL3; auto|]. rewrite WL, (WDt e1 I1). rewrite <- Ex. apply (turn_unique k); auto.
Qed.

Theorem neq_blocked (A : term -> Prop) : (forall D, In D Others -> htrue A D) -> exists A', forall D, In D (C :: Others) -> htrue A' D.
Proof.
  intros HS. destruct (flip_limit (pos L) HCI HDI turn A) as [R1 R2].
  - intros d (D & s & ID & Rv & ->). specialize (HS D ID s Rv). rewrite Exists_exists in *. destruct HS as [e [Ie He]]. exists (hl s e). split; [apply in_map; auto|]. apply hl_true. auto.
  - intros k q. apply neq_step.
  - intros x m. apply turn_fair.
  - exists (lim (pos L) HCI turn A). intros D [<-|ID] s Rv.
    + specialize (R2 (Terms.app s (lt L)) (map (hl s) (except j C)) ltac:(exists s; auto)). inversion R2 as [g l' G|g l' G]; subst.
      * apply Exists_exists. exists L. split; [eapply nth_error_In; eauto|]. apply hl_true. exact G.
      * apply Exists_exists in G. destruct G as [g [Ig G]]. apply in_map_iff in Ig. destruct Ig as [e [<- Ie]]. apply Exists_exists. exists e.
        split; [eapply except_in; eauto|]. apply hl_true. exact G.
    + specialize (R1 (map (hl s) D) ltac:(exists D, s; auto)). apply Exists_exists in R1. destruct R1 as [g [Ig G]]. apply in_map_iff in Ig. destruct Ig as [e [<- Ie]].
      apply Exists_exists. exists e. split; [exact Ie|]. apply hl_true. exact G.
Qed.
End Herbrand.
