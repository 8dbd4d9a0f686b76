(** * The invariant of the saturation loop. *)
From Coq Require Import Permutation.
From Verif Require Import Terms Unify UnifyProofs Semantics Clauses ClausesProofs LitOrder MatchProofs Infer InferProofs Subsume SubsumeProofs SubsumeSpec SubsumeClause SubsumeUnits SubsumeCond Taut Rewrite RewriteProofs RewriteHist Split SplitProofs SplitSemProofs SplitProps Saturate SaturateSyms SaturateRw SaturateStep AC ACScan.
Local Open Scope nat_scope.

Lemma sok_mono N N' t : N <= N' -> sok N t -> sok N' t.
Proof. intros L H f Hf. specialize (H f Hf). lia. Qed.
Lemma tgood_mono E N N' t : N <= N' -> tgood E N t -> tgood E N' t.
Proof. intros L [A [B C]]. split; auto. split; auto. eapply sok_mono; eauto. Qed.
Lemma lgood_mono E N N' e : N <= N' -> lgood E N e -> lgood E N' e.
Proof. intros L [A [B C]]. split; auto. split; eapply sok_mono; eauto. Qed.
Lemma follows_mono E G G' c : incl G G' -> follows E G c -> follows E G' c.
Proof. intros I F M HM HT. apply F; auto. Qed.
Lemma cgood_mono E G G' N N' c : incl G G' -> N <= N' -> cgood E G N c -> cgood E G' N' c.
Proof. intros I L [A B]. split; [eapply Forall_impl; [|exact A]; intros e; apply lgood_mono; auto|eapply follows_mono; eauto]. Qed.
Lemma links_mono E G G' N N' W : incl G G' -> N <= N' -> links_ok E N G W -> links_ok E N' G' W.
Proof.
  intros I L H t u a b Q. destruct (H t u a b Q) as [A [B [C D]]]. split; [eapply tgood_mono; eauto|]. split; [eapply tgood_mono; eauto|]. split; auto.
  intros M HM HT. apply D; auto.
Qed.

(** what the run needs from its parameters *)
Section Inv.
Variables (E : env) (K : conf) (n : nat) (n0 : sym) (N0 : list clause).
Hypothesis HE : env_ok E.
Hypothesis HK : conf_ok E K n0.
Hypothesis H0 : 2 < n0.
Hypothesis HOK : Forall (clause_ok E) N0.
Hypothesis HB : Forall (below n0) N0.
Notation SS := (srt E).

Definition gd (G : list clause) (N : sym) (c : cl) : Prop := cgood E G N (lits c).
Definition gdd (G : list clause) (N : sym) (c : cl) : Prop := gd G N c /\ is_demod (lits c) = true.
Record sgood (G : list clause) (s : state) : Prop := {
  s_r : Forall (gdd G (nextc s)) (rules s); s_e : Forall (gdd G (nextc s)) (eqns s);
  s_g : Forall (gd G (nextc s)) (negs s); s_n : Forall (gd G (nextc s)) (nons s);
  s_u : Forall (gd G (nextc s)) (unproc s); s_t : Forall (gd G (nextc s)) (tmp s);
  s_l : links_ok E (nextc s) G (links s); s_next : n0 <= nextc s;
  s_a : justified (acs s) /\ Forall (cgood E G (nextc s)) (ac_axioms (acs s)) }.
Definition hist (G : list clause) (s : state) : Prop :=
  moves E (lookup K) (fun sv => sv = []) {| pset := N0; pstore := []; pnext := n0 |} {| pset := G; pstore := defs s; pnext := nextc s |}
  /\ forall d p, In (d, p) (defs s) -> follows E G (def_lit E p true [] :: d).
Definition inv (G : list clause) (s : state) : Prop := hist G s /\ sgood G s.

Lemma inv_next G s : inv G s -> 2 < nextc s. Proof. intros [_ H]. pose proof (s_next _ _ H). lia. Qed.
Lemma min_good N : n0 <= N -> strong_inst K = true -> forall x, tgood E N (minterm K (vsort SS x)) /\ tsort SS (minterm K (vsort SS x)) = vsort SS x.
Proof. intros L HS x. destruct (co_min _ _ _ HK HS x) as [A [B [C D]]]. split; auto. split; auto. split; auto. intros f Hf. specialize (C f Hf). lia. Qed.

Lemma gdd_gd G N l : Forall (gdd G N) l -> Forall (gd G N) l.
Proof. intros H. eapply Forall_impl; [|exact H]. intros c [A _]. auto. Qed.

(** lists of units and demodulators *)
Section Pol.
Variable P : policy.
Lemma units_good G N l : Forall (gd G N) l -> Forall (ugood E G N) (units_of l).
Proof.
  intros H. apply Forall_forall. intros u Hu. unfold units_of in Hu. apply in_flat_map in Hu. destruct Hu as [c [I Hu]]. rewrite Forall_forall in H. specialize (H c I). unfold gd in H.
  destruct (lits c) as [|e [|? ?]] eqn:Q; try destruct Hu as []. 1: subst u; exact H. destruct (ori e); [destruct H1|destruct H1 as [<-|[]]; exact H].
Qed.
Lemma pick_forall {A} (Q : A -> Prop) ix l : Forall Q l -> Forall Q (pick ix l).
Proof. rewrite !Forall_forall. intros H x Hx. apply H. eapply pick_in; eauto. Qed.
Lemma pos_units_good G s c : sgood G s -> Forall (ugood E G (nextc s)) (pos_units P s c).
Proof. intros H. apply pick_forall, units_good, gdd_gd, (s_e _ _ H). Qed.
Lemma neg_units_good G s c : sgood G s -> Forall (ugood E G (nextc s)) (neg_units P s c).
Proof. intros H. apply pick_forall, units_good, (s_g _ _ H). Qed.
Lemma dem_lits G N c e z d : gdd G N c -> lits c = [e] -> In d (dems_of e z) -> dgood E N G d.
Proof.
  intros [[A F] D] Q I. rewrite Q in *. inversion A as [|? ? [X Y] _]; subst. assert (P1 : pos e = true).
  { unfold is_demod, pos_no, neg_no in D. cbn in D. destruct (pos e); auto. }
  assert (L : dlit d = e) by (unfold dems_of in I; destruct I as [<-|I]; auto; destruct (ori e); [destruct I|destruct I as [<-|[]]; auto]).
  unfold dgood. rewrite L. auto.
Qed.
Lemma dems_good G N l : Forall (gdd G N) l -> forall d, In d (dems_at l) -> dgood E N G d.
Proof.
  intros H d I. unfold dems_at in I. apply in_flat_map in I. destruct I as [c [I J]]. rewrite Forall_forall in H. destruct (lits c) as [|e [|? ?]] eqn:Q; try destruct J.
  - eapply dem_lits; [exact (H c I)|exact Q|]. left. eauto.
  - eapply dem_lits; [exact (H c I)|exact Q|]. right. eauto.
Qed.
Lemma enum_good G s : sgood G s -> forall i t z d, In d (dem_enum P s i t z) -> dgood E (nextc s) G d.
Proof. intros H i t z d I. apply pick_in in I. destruct i; [exact (dems_good _ _ _ (s_r _ _ H) d I)|exact (dems_good _ _ _ (s_e _ _ H) d I)]. Qed.

(** steps that only add links *)
Definition relink (G : list clause) (s s' : state) : Prop := exists W, s' = set_links s W /\ links_ok E (nextc s) G W.
Lemma relink_refl G s : sgood G s -> relink G s s.
Proof. intros H. exists (links s). split; [destruct s; reflexivity|apply H]. Qed.
Lemma relink_trans G s1 s2 s3 : relink G s1 s2 -> relink G s2 s3 -> relink G s1 s3.
Proof. intros [W [-> A]] [W' [-> B]]. exists W'. split; auto. Qed.
Lemma relink_good G s s' : sgood G s -> relink G s s' -> sgood G s'.
Proof. intros H [W [-> A]]. destruct H. constructor; auto. Qed.
Lemma relink_inv G s s' : inv G s -> relink G s s' -> inv G s'.
Proof. intros [A B] R. split; [|eapply relink_good; eauto]. destruct R as [W [-> _]]. exact A. Qed.
Lemma relink_next G s s' : relink G s s' -> nextc s' = nextc s.
Proof. intros [W [-> _]]. reflexivity. Qed.
Lemma relink_tmp G s s' : relink G s s' -> tmp s' = tmp s.
Proof. intros [W [-> _]]. reflexivity. Qed.

Lemma li_nf_good lv G s c s' c' : inv G s -> gd G (nextc s) c -> li_nf E K P n lv s c = Some (s', c') -> relink G s s' /\ gd G (nextc s) c'.
Proof.
  intros HI HC H. pose proof HI as [_ HS]. unfold li_nf in H.
  assert (X : forall full, match clause_nf E (gtb K) (strong_inst K) (minterm K) (dem_enum P s) (set_date (rdate s) (edate s)) full n (links s) (lits c) (limited c) with
         | Some (W, l, lim) => Some (set_links s W, with_lits c l lim) | None => None end = Some (s', c') -> relink G s s' /\ gd G (nextc s) c').
  { intros full X. match type of X with match ?g with _ => _ end = _ => destruct g as [[[W l] lim]|] eqn:Q end; [|discriminate]. injection X as <- <-.
    destruct (clause_nf_links E (gtb K) (strong_inst K) (minterm K) (nextc s) G (min_good _ (s_next _ _ HS)) (dem_enum P s) _ full (enum_good G s HS) n (lits c) (links s) (limited c) W l lim (s_l _ _ HS) (proj1 HC) Q) as [A [B C]].
    split; [exists W; auto|]. split; auto. intros M HM HT v Hv. apply (C M HM HT v Hv). apply (proj2 HC M HM HT v Hv). }
  destruct lv; [injection H as <- <-; split; auto; apply relink_refl; auto| |]; eapply X; eauto.
Qed.
Lemma ac_resolve_good G s c : sgood G s -> gd G (nextc s) c -> gd G (nextc s) (ac_resolve (acs s) c).
Proof.
  intros HS HC. destruct (s_a _ _ HS) as [J F]. unfold ac_resolve. destruct (ac_active (acs s)); auto. cbv zeta. unfold gd. cbn [with_lits lits].
  assert (OA : Forall (clause_ok E) (ac_axioms (acs s))) by (eapply Forall_impl; [|exact F]; intros d; apply cgood_ok).
  eapply cgood_sub; [exact HC| |].
  - intros e He. unfold remove_ac_resolved in He. apply filter_In in He. tauto.
  - intros M v [HM HT] Hv. apply (resolved_iff E (acs s) M v); auto; [apply justified_ok; auto| |eapply cgood_ok; eauto].
    apply (justified_respects E (acs s) J OA M v Hv). intros d Hd. rewrite Forall_forall in F. apply (proj2 (F d Hd) M HM HT).
Qed.
Lemma forward_modify_good cond lv G : forall k s c s' c' b, inv G s -> gd G (nextc s) c -> forward_modify E K P n k cond lv s c = Some (s', c', b) ->
  relink G s s' /\ gd G (nextc s) c'.
Proof.
  induction k as [|k IH]; intros s c s' c' b HI HC H; [discriminate|]. cbn [forward_modify] in H. pose proof (inv_next _ _ HI) as HN.
  destruct (li_nf E K P n lv s c) as [[s1 c1]|] eqn:L; [|discriminate]. destruct (li_nf_good _ _ _ _ _ _ HI HC L) as [R1 G1]. cbv zeta in H.
  pose proof (superfluous_good E G (nextc s) c1 G1) as G2'.
  assert (G2 : gd G (nextc s) (ac_resolve (acs s1) (superfluous E c1))).
  { rewrite <- (relink_next _ _ _ R1) in G2' |- *. apply ac_resolve_good; auto. eapply relink_good; [exact (proj2 HI)|exact R1]. }
  set (c2 := ac_resolve (acs s1) (superfluous E c1)) in *.
  destruct (if local_rewriting K then local_rw E K n c2 else Some c2) as [c3|] eqn:LR; [|discriminate].
  assert (G3 : gd G (nextc s) c3).
  { destruct (local_rewriting K); [|injection LR as <-; auto]. exact (local_rw_good E K n HE G (nextc s) HN c2 c3 G2 LR). }
  pose proof (orient_good E K G (nextc s) _ G3) as G4. set (l4 := orient K (lits c3)) in *.
  match type of H with match ?g with _ => _ end = _ => destruct g as [l5|] eqn:CD end; [|discriminate].
  assert (G5 : cgood E G (nextc s) l5).
  { destruct cond; [|injection CD as <-; auto]. destruct (condense E n l4) as [d| |] eqn:CQ; try discriminate. injection CD as <-. apply orient_good. exact (condense_good E n HE G (nextc s) HN l4 d G4 CQ). }
  destruct (clause_is_trivial _ E l5) as [[|]|]; [injection H as <- <- <-; split; auto| |discriminate].
  pose proof (relink_good _ _ _ (proj2 HI) R1) as S1. pose proof (relink_next _ _ _ R1) as NX.
  match type of H with match ?g with _ => _ end = _ => destruct g as [[l6 u1]|] eqn:PS end; [|discriminate].
  assert (G6 : cgood E G (nextc s) l6).
  { destruct (Nat.eqb (neg_no l5) 0); [injection PS as <- _; auto|]. eapply pos_sr_good; [| |exact PS]; auto. rewrite <- NX. apply pos_units_good; auto. }
  match type of H with match ?g with _ => _ end = _ => destruct g as [[l7 u2]|] eqn:NS end; [|discriminate].
  assert (G7 : cgood E G (nextc s) l7).
  { destruct (Nat.eqb (pos_no l6) 0); [injection NS as <- _; auto|]. eapply neg_sr_good; [| |exact NS]; auto. rewrite <- NX. apply neg_units_good; auto. }
  destruct (Bool.eqb _ _); [injection H as <- <- <-; split; auto|].
  eapply IH in H; [|exact (relink_inv _ _ _ HI R1)|unfold gd; cbn [with_lits lits]; rewrite NX; exact G7]. destruct H as [R2 G8]. split; [eapply relink_trans; eauto|]. rewrite NX in G8. auto.
Qed.
Lemma subsumption_good nu G s l l' b : cgood E G (nextc s) l -> forward_subsumption E K P n nu s l = Some (l', b) -> cgood E G (nextc s) l'.
Proof.
  intros HC H. unfold forward_subsumption in H. destruct (if Nat.eqb (pos_no l) 0 then _ else _); try discriminate; [injection H as <- _; auto|].
  destruct (if Nat.eqb (neg_no l) 0 then _ else _); try discriminate; [injection H as <- _; auto|].
  destruct (_ && _); [|injection H as <- _; auto]. cbv zeta in H. destruct (set_subsumes _ _ _ _); try discriminate; injection H as <- _; apply sort_good; auto.
Qed.
Lemma forward_contract_good nu csr cond lv G s c s' r : inv G s -> gd G (nextc s) c -> forward_contract E K P n nu csr cond lv s c = Some (s', r) ->
  relink G s s' /\ forall c', r = Some c' -> gd G (nextc s) c'.
Proof.
  intros HI HC H. unfold forward_contract in H. cbv zeta in H. pose proof (inv_next _ _ HI) as HN.
  assert (FIN : forall s1 c1 s2 r, gd G (nextc s) c1 -> match mark_maximal K (select_lits P s1 (lits c1)) with Some l => Some (s1, Some (with_lits c1 l (limited c1))) | None => None end = Some (s2, r) ->
     s2 = s1 /\ forall c', r = Some c' -> gd G (nextc s) c').
  { clear - HE. intros s1 c1 s2 r G1 Q. destruct (mark_maximal K _) as [l|] eqn:MM; [|discriminate]. injection Q as <- <-. split; auto. intros c' [= <-]. unfold gd. cbn. eapply mark_good; [|exact MM]. apply select_good; auto. }
  destruct (given_simpl K).
  - destruct (forward_modify E K P n n cond lv s c) as [[[s1 c1] b]|] eqn:FM; [|discriminate]. destruct (forward_modify_good _ _ _ _ _ _ _ _ _ HI HC FM) as [R1 G1].
    destruct b; [injection H as <- <-; split; auto; discriminate|].
    assert (H' : (lits c1 = [] /\ Some (s1, Some c1) = Some (s', r)) \/ Some (s1, None) = Some (s', r) \/ match clause_is_tautology (eno K) (max_neg K) E n (lits c1) with
            | TAns true => Some (s1, None)
            | TAns false =>
                match forward_subsumption E K P n nu s1 (lits c1) with
                | None => None
                | Some (_, true) => Some (s1, None)
                | Some (l2, false) =>
                    if csr && Nat.ltb 1 (length l2) then
                      match contextual_sr E n (map lits (nons s1)) l2 with
                      | None => None
                      | Some (l3, used) => let c2 := (with_lits c1 (sort_lits l3) (limited c1 && match used with [] => true | _ => false end)) in
                           match mark_maximal K (select_lits P s1 (lits c2)) with Some l => Some (s1, Some (with_lits c2 l (limited c2))) | None => None end
                      end
                    else let c2 := with_lits c1 l2 (limited c1) in match mark_maximal K (select_lits P s1 (lits c2)) with Some l => Some (s1, Some (with_lits c2 l (limited c2))) | None => None end
                end
            | _ => None
            end = Some (s', r)) by (destruct (lits c1); [left; auto|right; destruct (ac_discard _ _ _); [left|right]; exact H]).
    clear H. destruct H' as [[_ H]|[H|H]]; [injection H as <- <-; split; auto; intros c' [= <-]; auto|injection H as <- <-; split; auto; discriminate|].
    destruct (clause_is_tautology _ _ _ _ _) as [[|]| |]; try discriminate; [injection H as <- <-; split; auto; discriminate|].
    pose proof (relink_next _ _ _ R1) as NX.
    destruct (forward_subsumption E K P n nu s1 (lits c1)) as [[l2 [|]]|] eqn:FS; [injection H as <- <-; split; auto; discriminate| |discriminate].
    assert (G2 : cgood E G (nextc s) l2) by (rewrite <- NX; eapply subsumption_good; [|exact FS]; rewrite NX; exact G1).
    destruct (csr && _).
    + destruct (contextual_sr _ _ _ _) as [[l3 us]|] eqn:CS; [|discriminate].
      assert (G3 : cgood E G (nextc s) l3).
      { eapply context_good; [exact G2| |exact CS]. pose proof (s_n _ _ (relink_good _ _ _ (proj2 HI) R1)) as X. rewrite NX in X. apply Forall_map. exact X. }
      cbv zeta in H. apply (FIN s1 (with_lits c1 (sort_lits l3) (limited c1 && match us with [] => true | _ => false end))) in H; [|apply sort_good; auto]. destruct H as [-> H]. auto.
    + cbv zeta in H. apply (FIN s1 (with_lits c1 l2 (limited c1))) in H; [|exact G2]. destruct H as [-> H]. auto.
  - destruct (lits c) as [|e0 l0] eqn:Q; [injection H as <- <-; split; [apply relink_refl, HI|]; intros c' [= <-]; auto|]. rewrite <- Q in H.
    apply FIN in H; auto. destruct H as [-> H]. split; auto. apply relink_refl, HI.
Qed.

(** *** splitting *)
Lemma make_defs_store fd : forall bs st m join ds j st' n', make_defs E (lookup K) fd [] bs st m join = (ds, j, st', n') ->
  forall d p, In (d, p) st' -> In (d, p) st \/ exists l, In (clause_alloc (def_lit E p true [] :: l)) ds /\ d = sort_lits (clause_alloc l).
Proof.
  induction bs as [|l bs IH]; intros st m join ds j st' n' H d p I; cbn [make_defs] in H; [injection H as _ _ <- _; auto|].
  destruct (one_def E (lookup K) fd [] st m l) as [[[p1 d1] st1] n1] eqn:O. destruct (make_defs E (lookup K) fd [] bs st1 n1 _) as [[[ds2 j2] st2] n2] eqn:MD. injection H as <- _ <- _.
  destruct (IH _ _ _ _ _ _ _ MD d p I) as [X|[l' [X Y]]]; [|right; exists l'; split; auto; destruct d1; [right|]; auto].
  apply (one_def_round E (lookup K) (co_lookup _ _ _ HK)) in O. destruct O as [st'' [->|[_ ->]]|d0 p0 _ _ _]; auto. destruct X as [[= <- <-]|X]; auto. right. exists l. split; [left; auto|auto].
Qed.
Lemma split_good G s l s' cs : inv G s -> cgood E G (nextc s) l -> controlled_split E K P s l = Some (Some (s', cs)) ->
  exists G', inv G' s' /\ incl G G' /\ nextc s <= nextc s' /\ Forall (gd G' (nextc s')) cs.
Proof.
  intros [[HM HS] HG] HC H. unfold controlled_split in H. destruct (split_wanted K l); [|discriminate].
  destruct (clause_split _ _ _ _ _ _ _ _ _) as [[r|]|] eqn:CS; try discriminate. injection H as <- <-.
  set (G' := G ++ new_defs r ++ [rest r]).
  assert (BL : below (nextc s) l) by (apply (below_lok (nextc s)); eapply cgood_lok; eauto).
  assert (OKl : clause_ok E l) by (eapply cgood_ok; eauto).
  assert (DC : declared E [] (nextc s) (new_next r)) by (intros f Hf; apply (co_decl _ _ _ HK (new_next r)); pose proof (s_next _ _ HG); lia).
  assert (MV1 : moves E (lookup K) (fun sv => sv = []) {| pset := N0; pstore := []; pnext := n0 |} {| pset := l :: G; pstore := defs s; pnext := nextc s |}).
  { eapply moves_step; [exact HM|]. apply move_add; auto. apply HC. }
  assert (MV2 : move E (lookup K) (fun sv => sv = []) {| pset := [] ++ l :: G; pstore := defs s; pnext := nextc s |} {| pset := [] ++ G'; pstore := new_store r; pnext := new_next r |}).
  { eapply move_split; [reflexivity|exact CS|exact DC|intros x []|]. intros d p Hd _. apply HS. auto. }
  assert (MV : moves E (lookup K) (fun sv => sv = []) {| pset := N0; pstore := []; pnext := n0 |} {| pset := G'; pstore := new_store r; pnext := new_next r |}) by (eapply moves_step; [exact MV1|exact MV2]).
  assert (TB : forall sv : list var, sv = [] -> tabulable sv) by (intros sv ->; apply tabulable_nil).
  destruct (moves_inv E HE (lookup K) (co_lookup _ _ _ HK) (fun sv => sv = []) N0 n0 _ TB HOK HB H0 MV1) as [W1 _].
  destruct (moves_inv E HE (lookup K) (co_lookup _ _ _ HK) (fun sv => sv = []) N0 n0 _ TB HOK HB H0 MV) as [[W2 [W3 _]] _]. cbn [pset pnext] in *.
  pose proof (move_next E HE (lookup K) (co_lookup _ _ _ HK) _ _ _ MV2 W1) as LE. cbn [pnext] in LE.
  assert (I : incl G G') by (intros x Hx; unfold G'; apply in_or_app; auto).
  exists G'. cbn [set_defs nextc]. split; [|split; [auto|split; [auto|]]].
  - split; [split|].
    + exact MV.
    + intros d p Hd. cbn [set_defs defs] in Hd. destruct (clause_split_inv _ _ _ _ _ _ _ _ _ _ CS) as [bs [_ [MD _]]].
      destruct (make_defs_store _ _ _ _ _ _ _ _ _ MD d p Hd) as [X|[l' [X ->]]]; [eapply follows_mono; [exact I|]; apply HS; auto|].
      apply C20_kept_definition. unfold G'. apply in_or_app. right. apply in_or_app. auto.
    + assert (MG : forall c, gd G (nextc s) c -> gd G' (new_next r) c) by (intros c; unfold gd; apply cgood_mono; auto).
      assert (MD : forall c, gdd G (nextc s) c -> gdd G' (new_next r) c) by (intros c [A B]; split; auto).
      destruct HG. constructor; cbn [set_defs rules eqns negs nons unproc tmp links nextc] in *; try (eapply Forall_impl; [|eassumption]; auto).
      * eapply links_mono; eauto.
      * lia.
      * destruct s_a0 as [J F]. split; auto. eapply Forall_impl; [|exact F]. intros c. apply cgood_mono; auto.
  - apply Forall_map. unfold gd. cbn. apply Forall_forall. intros c Hc. assert (J : In c G') by (unfold G'; apply in_or_app; auto). rewrite Forall_forall in W2, W3.
    split; [apply lgood_split; split; [apply W2; auto|apply below_lok; apply W3; auto]|]. intros M HMM HT. apply HT. auto.
Qed.

(** *** composed steps *)
Definition nosplit : Prop := forall l, split_wanted K l = false.
Definition ext (G : list clause) (s : state) (G' : list clause) (s' : state) : Prop :=
  inv G' s' /\ incl G G' /\ nextc s <= nextc s' /\ (nosplit -> nextc s' = nextc s).
Lemma ext_refl G s : inv G s -> ext G s G s. Proof. intros H. split; auto. split; [apply incl_refl|]. split; auto. Qed.
Lemma ext_trans G1 s1 G2 s2 G3 s3 : ext G1 s1 G2 s2 -> ext G2 s2 G3 s3 -> ext G1 s1 G3 s3.
Proof.
  intros [_ [A2 [A3 A4]]] [B1 [B2 [B3 B4]]]. split; auto. split; [eapply incl_tran; eauto|]. split; [lia|]. intros H. rewrite B4, A4; auto.
Qed.
Lemma ext_same G s s' : inv G s' -> nextc s' = nextc s -> ext G s G s'.
Proof. intros H Q. split; auto. split; [apply incl_refl|]. split; [lia|auto]. Qed.
Lemma ext_gd G s G' s' c : ext G s G' s' -> gd G (nextc s) c -> gd G' (nextc s') c.
Proof. intros [_ [A [B _]]]. apply cgood_mono; auto. Qed.
Lemma ext_gds G s G' s' l : ext G s G' s' -> Forall (gd G (nextc s)) l -> Forall (gd G' (nextc s')) l.
Proof. intros X H. eapply Forall_impl; [|exact H]. intros c. eapply ext_gd; eauto. Qed.
Lemma relink_ext G s s' : inv G s -> relink G s s' -> ext G s G s'.
Proof. intros H R. apply ext_same; [eapply relink_inv; eauto|eapply relink_next; eauto]. Qed.
Lemma split_ext G s l s' cs : inv G s -> cgood E G (nextc s) l -> controlled_split E K P s l = Some (Some (s', cs)) ->
  exists G', ext G s G' s' /\ Forall (gd G' (nextc s')) cs.
Proof.
  intros HI HC H. destruct (split_good _ _ _ _ _ HI HC H) as [G' [A [B [C D]]]]. exists G'. split; auto. split; auto. split; auto. split; auto.
  intros NS. exfalso. unfold controlled_split in H. rewrite NS in H. discriminate.
Qed.
Lemma inv_tmp G s t : inv G s -> Forall (gd G (nextc s)) t -> inv G (set_tmp s t).
Proof. intros [A [B1 B2 B3 B4 B5 B6 B7 B8 B9]] H. split; [exact A|]. constructor; auto. Qed.
Lemma inv_unproc G s t : inv G s -> Forall (gd G (nextc s)) t -> inv G (set_unproc s t).
Proof. intros [A [B1 B2 B3 B4 B5 B6 B7 B8 B9]] H. split; [exact A|]. constructor; auto. Qed.
Lemma inv_proc G s r e g x : inv G s -> Forall (gdd G (nextc s)) r -> Forall (gdd G (nextc s)) e -> Forall (gd G (nextc s)) g -> Forall (gd G (nextc s)) x -> inv G (set_proc s r e g x).
Proof. intros [A [B1 B2 B3 B4 B5 B6 B7 B8 B9]] H1 H2 H3 H4. split; [exact A|]. constructor; auto. Qed.
Lemma inv_dates G s a b : inv G s -> inv G (set_dates s a b).
Proof. intros [A [B1 B2 B3 B4 B5 B6 B7 B8 B9]]. split; [exact A|]. constructor; auto. Qed.
Lemma inv_links G s W : inv G s -> links_ok E (nextc s) G W -> inv G (set_links s W).
Proof. intros [A [B1 B2 B3 B4 B5 B6 B7 B8 B9]] H. split; [exact A|]. constructor; auto. Qed.
Lemma inv_ac G s A : inv G s -> justified A -> Forall (cgood E G (nextc s)) (ac_axioms A) -> inv G (set_ac s A).
Proof. intros [H [B1 B2 B3 B4 B5 B6 B7 B8 B9]] J F. split; [exact H|]. constructor; auto. Qed.
Lemma check_inv G s m c : inv G s -> cgood E G (nextc s) c -> inv G (set_ac s (ac_check m (acs s) c)).
Proof.
  intros HI HC. destruct (s_a _ _ (proj2 HI)) as [J F]. destruct (check_justified m (acs s) c J) as [J' I']. apply inv_ac; auto.
  rewrite Forall_forall in *. intros d Hd. destruct (I' d Hd) as [X|X]; [auto|subst; auto].
Qed.
Lemma inv_tick G s : inv G s -> inv G (tick s).
Proof. intros [A [B1 B2 B3 B4 B5 B6 B7 B8 B9]]. split; [exact A|]. constructor; auto. Qed.
Lemma forall_filter {A} (Q : A -> Prop) f l : Forall Q l -> Forall Q (filter f l).
Proof. rewrite !Forall_forall. intros H x Hx. apply filter_In in Hx. apply H. tauto. Qed.
Lemma forall_except {A} (Q : A -> Prop) i l : Forall Q l -> Forall Q (except i l).
Proof. rewrite !Forall_forall. intros H x Hx. apply H. eapply except_in; eauto. Qed.

(** the clause returned, if any *)
Definition found_ok (G : list clause) (N : sym) (r : option cl) : Prop := forall e, r = Some e -> lits e = [] /\ gd G N e.
Lemma found_none G N : found_ok G N None. Proof. intros e H. discriminate. Qed.

Lemma insert_new_good : forall k G s acc s' r, inv G s -> Forall (gd G (nextc s)) acc -> insert_new E K P n k s acc = Some (s', r) ->
  exists G', ext G s G' s' /\ found_ok G' (nextc s') r.
Proof.
  induction k as [|k IH]; intros G s acc s' r HI HA H; [discriminate|]. cbn [insert_new] in H. destruct (tmp s) as [|h rest] eqn:T.
  - injection H as <- <-. exists G. split; [|apply found_none]. apply ext_same; auto. apply inv_unproc; auto. apply Forall_app. split; [apply (s_u _ _ (proj2 HI))|apply Forall_rev; auto].
  - cbv zeta in H. pose proof (s_t _ _ (proj2 HI)) as HT. rewrite T in HT. inversion HT as [|? ? Gh Gr]; subst. set (s0 := set_tmp s rest) in *.
    assert (I0 : inv G s0) by (apply inv_tmp; auto).
    (* continuing after a step *)
    assert (REC : forall G1 s1 acc1, ext G s G1 s1 -> Forall (gd G1 (nextc s1)) acc1 -> insert_new E K P n k s1 acc1 = Some (s', r) -> exists G', ext G s G' s' /\ found_ok G' (nextc s') r).
    { intros G1 s1 acc1 X A1 Q. destruct (IH G1 s1 acc1 s' r (proj1 X) A1 Q) as [G' [Y Z]]. exists G'. split; auto. eapply ext_trans; eauto. }
    match type of H with match ?g with _ => _ end = _ => destruct g as [[[s1 h1] b1]|] eqn:F1 end; [|discriminate].
    assert (X1 : relink G s0 s1 /\ gd G (nextc s) h1).
    { destruct (irv h); [eapply forward_modify_good in F1; eauto|]. injection F1 as <- <- _. split; auto. apply relink_refl, I0. }
    destruct X1 as [R1 G1]. pose proof (relink_inv _ _ _ I0 R1) as I1. pose proof (relink_next _ _ _ R1) as N1. change (nextc s0) with (nextc s) in N1.
    match type of H with match ?g with _ => _ end = _ => destruct g as [[[s2 h2] b2]|] eqn:F2 end; [|discriminate].
    eapply forward_modify_good in F2; [|exact I1|rewrite N1; exact G1]. destruct F2 as [R2 G2]. pose proof (relink_inv _ _ _ I1 R2) as I2. pose proof (relink_next _ _ _ R2) as N2. rewrite N1 in *.
    assert (X2 : ext G s G s2) by (apply ext_same; auto).
    assert (A2 : Forall (gd G (nextc s2)) acc) by (rewrite N2; auto).
    destruct (clause_is_trivial _ _ _) as [[|]|]; [eapply REC; eauto| |discriminate].
    destruct (lits h2) as [|e0 l0] eqn:LQ.
    + injection H as <- <-. exists G. split; auto. intros e [= <-]. split; auto. rewrite N2. auto.
    + rewrite <- LQ in H. match type of H with match ?g with _ => _ end = _ => destruct g as [[l3 b3]|] eqn:FS end; [|discriminate].
      assert (G3 : cgood E G (nextc s2) l3).
      { rewrite <- N2 in G2. destruct (subsumption_aggr K); [eapply subsumption_good; [exact G2|exact FS]|]. injection FS as <- _. exact G2. }
      destruct b3; [eapply REC; eauto|].
      match type of H with match ?g with _ => _ end = _ => destruct g as [[l4 b4]|] eqn:ER end; [|discriminate].
      assert (G4 : cgood E G (nextc s2) l4).
      { destruct (er_aggr K && er_varlit K); [|injection ER as <- _; auto]. eapply er_normalize_good; [exact HE| |exact G3|exact ER]. apply (inv_next _ _ I2). }
      destruct b4.
      * eapply REC; cycle 2; [exact H| |exact A2]. apply ext_same; auto. apply inv_tmp; auto. apply Forall_app. split; [apply (s_t _ _ (proj2 I2))|]. constructor; auto.
      * match type of H with match ?g with _ => _ end = _ => destruct g as [[[s3 cs]|]|] eqn:CS end; [| |discriminate].
        -- destruct (split_aggr K); [|discriminate]. destruct (split_ext _ _ _ _ _ I2 G3 CS) as [G' [X3 C3]].
           assert (X4 : ext G' s3 G' (set_tmp s3 (tmp s3 ++ cs))).
           { apply ext_same; auto. apply inv_tmp; [apply X3|]. apply Forall_app. split; auto. apply (s_t _ _ (proj2 (proj1 X3))). }
           assert (X5 : ext G s2 G' (set_tmp s3 (tmp s3 ++ cs))) by (eapply ext_trans; eauto).
           eapply REC; cycle 2; [exact H|eapply ext_trans; [exact X2|exact X5]|exact (ext_gds _ _ _ _ _ X5 A2)].
        -- eapply REC; [exact X2| |exact H]. constructor; auto. unfold gd. cbn [with_lits lits]. destruct (choose_lits P s2 [] 0); [apply select_good; auto|apply unselect_good; auto].
Qed.

Definition rep_ok (G : list clause) (N : sym) (r : option cl + cl) : Prop := match r with inl o => found_ok G N o | inr c => gd G N c end.
Lemma replacing_good G s c s' r : inv G s -> gd G (nextc s) c -> replacing E K P n s c = Some (s', r) -> exists G', ext G s G' s' /\ rep_ok G' (nextc s') r.
Proof.
  intros HI HC H. unfold replacing in H. match type of H with match ?g with _ => _ end = _ => destruct g as [[d b]|] eqn:ER end; [|discriminate].
  assert (GD : cgood E G (nextc s) d).
  { destruct (er_varlit K); [|injection ER as <- _; auto]. eapply er_normalize_good; [exact HE| |exact HC|exact ER]. apply (inv_next _ _ HI). }
  assert (T : forall G1 s1 cs s2 e, inv G1 s1 -> Forall (gd G1 (nextc s1)) cs -> insert_new E K P n n (set_tmp s1 (tmp s1 ++ cs)) [] = Some (s2, e) -> exists G', ext G1 s1 G' s2 /\ found_ok G' (nextc s2) e).
  { intros G1 s1 cs s2 e I1 C1 Q. assert (I2 : inv G1 (set_tmp s1 (tmp s1 ++ cs))) by (apply inv_tmp; auto; apply Forall_app; split; auto; apply (s_t _ _ (proj2 I1))).
    destruct (insert_new_good _ _ _ _ _ _ I2 (Forall_nil _) Q) as [G' [X Y]]. exists G'. split; [|exact Y]. eapply ext_trans; [apply ext_same; [exact I2|reflexivity]|exact X]. }
  destruct b.
  - match type of H with match ?g with _ => _ end = _ => destruct g as [[s2 e]|] eqn:IN end; [|discriminate]. injection H as <- <-. eapply (T G s); [auto| |exact IN]. constructor; auto.
  - match type of H with match ?g with _ => _ end = _ => destruct g as [[[s1 cs]|]|] eqn:CS end; [| |discriminate].
    + match type of H with match ?g with _ => _ end = _ => destruct g as [[s2 e]|] eqn:IN end; [|discriminate]. injection H as <- <-.
      destruct (split_ext _ _ _ _ _ HI HC CS) as [G1 [X1 C1]]. destruct (T G1 s1 cs s2 e (proj1 X1) C1 IN) as [G' [X2 F2]]. exists G'. split; auto. eapply ext_trans; eauto.
    + injection H as <- <-. exists G. split; [apply ext_refl; auto|exact HC].
Qed.

(** *** backward simplification *)
Lemma procs_good G s : sgood G s -> Forall (gd G (nextc s)) (rules s ++ eqns s ++ negs s ++ nons s).
Proof. intros [B1 B2 B3 B4 _ _ _ _ _]. repeat (apply Forall_app; split); auto using gdd_gd. Qed.
Lemma indexed_good G s t : sgood G s -> In t (indexed_terms s) -> tgood E (nextc s) t.
Proof.
  intros H I. unfold indexed_terms in I. apply in_flat_map in I. destruct I as [c [I J]]. pose proof (procs_good G s H) as X. rewrite Forall_forall in X. specialize (X c I). destruct X as [X _].
  apply in_flat_map in J. destruct J as [e [Je J]]. rewrite Forall_forall in X. specialize (X e Je). apply lgood_sides in X. destruct X as [L [R _]].
  apply in_app_or in J. destruct J as [J|J]; [exact (tgood_sub _ _ _ _ L J)|exact (tgood_sub _ _ _ _ R J)].
Qed.
Lemma back_rewrite_good G s c z : inv G s -> gd G (nextc s) c -> inv G (back_rewrite E K P s c z) /\ nextc (back_rewrite E K P s c z) = nextc s.
Proof.
  intros HI HC. unfold back_rewrite. destruct (lits c) as [|e [|? ?]] eqn:Q; auto. destruct (is_demod [e]) eqn:D; auto. cbv zeta. split; [|reflexivity]. pose proof (proj2 HI) as HS.
  set (W := fold_left _ _ _). assert (LW : links_ok E (nextc s) G W).
  { unfold W. clear W. assert (TG : Forall (tgood E (nextc s)) (pick (bw_terms P s) (indexed_terms s))) by (apply pick_forall; apply Forall_forall; intros t; eapply indexed_good; eauto).
    revert TG. generalize (pick (bw_terms P s) (indexed_terms s)). intros ts. pose proof (s_l _ _ HS) as L0. revert L0. generalize (links s). induction ts as [|t ts IH]; intros W L0 TG; cbn [fold_left]; auto.
    inversion TG as [|? ? Gt Gts]; subst. apply IH; auto.
    assert (DG : forall d, In d (dems_of e z) -> dgood E (nextc s) G d).
    { intros d Hd. eapply dem_lits; [|exact Q|exact Hd]. split; auto. rewrite Q. auto. }
    revert DG. generalize (dems_of e z). intros ds. clear IH. revert W L0. induction ds as [|d ds IHd]; intros W L0 DG; cbn [fold_left]; auto.
    apply IHd; [|intros d' Hd; apply DG; right; auto]. apply backward_links; auto; [apply min_good, (s_next _ _ HS)|]. apply DG. left; auto. }
  assert (FA : forall f, Forall (gd G (nextc s)) (filter f (rules s ++ eqns s ++ negs s ++ nons s))) by (intros f; apply forall_filter; apply procs_good; auto).
  apply inv_tmp; [|apply Forall_app; split; [apply (s_t _ _ HS)|apply FA]]. apply inv_links; auto. destruct HS. apply inv_proc; auto using forall_filter.
Qed.
Lemma remove_subsumed_good (Q : cl -> Prop) l set r : Forall Q set -> remove_subsumed E n l set = Some r -> Forall Q r.
Proof.
  revert r. induction set as [|d set IH]; intros r HQ H; cbn [remove_subsumed] in H; [injection H as <-; auto|]. inversion HQ; subst.
  destruct (clause_subsumes E n l (lits d)) as [b| |]; try discriminate. destruct (remove_subsumed E n l set) as [r'|]; [|discriminate]. injection H as <-. destruct b; auto.
Qed.
Lemma back_subsume_good G s l s' : inv G s -> back_subsume E n s l = Some s' -> inv G s' /\ nextc s' = nextc s.
Proof.
  intros HI H. unfold back_subsume in H. cbv zeta in H. pose proof (proj2 HI) as HS.
  repeat match type of H with match ?g with _ => _ end = _ => let Q := fresh "Q" in destruct g eqn:Q; [|discriminate] end. injection H as <-. split; [|reflexivity].
  apply inv_proc; auto.
  - destruct (_ && negb (is_rule l)) in Q; [eapply remove_subsumed_good; [|exact Q]|injection Q as <-]; apply (s_r _ _ HS).
  - destruct (_ && negb (is_rule l)) in Q0; [eapply remove_subsumed_good; [|exact Q0]|injection Q0 as <-]; apply (s_e _ _ HS).
  - destruct (_ && _) in Q1; [eapply remove_subsumed_good; [|exact Q1]|injection Q1 as <-]; apply (s_g _ _ HS).
  - eapply remove_subsumed_good; [|exact Q2]. apply (s_n _ _ HS).
Qed.
Lemma back_unit_good G s l : inv G s -> inv G (back_unit_simplify E n s l) /\ nextc (back_unit_simplify E n s l) = nextc s.
Proof.
  intros HI. unfold back_unit_simplify. destruct l as [|e [|? ?]]; auto. destruct (is_rule [e]); auto. cbv zeta. pose proof (proj2 HI) as [B1 B2 B3 B4 B5 B6 B7 B8 B9]. destruct (pos e); (split; [|reflexivity]).
  - apply inv_tmp; [apply inv_proc; auto using forall_filter|]. repeat (apply Forall_app; split); auto using forall_filter.
  - apply inv_tmp; [apply inv_proc; auto using forall_filter|]. repeat (apply Forall_app; split); auto using forall_filter, gdd_gd.
Qed.
Lemma back_context_good G s l : inv G s -> inv G (back_context_sr E K n s l) /\ nextc (back_context_sr E K n s l) = nextc s.
Proof.
  intros HI. unfold back_context_sr. destruct (bwd_csr K); auto. cbv zeta. pose proof (proj2 HI) as [B1 B2 B3 B4 B5 B6 B7 B8 B9]. split; [|reflexivity].
  apply inv_tmp; [apply inv_proc; auto using forall_filter|]. apply Forall_app; split; auto using forall_filter.
Qed.
Lemma proc_set_good G s k d : sgood G s -> In d (proc_set s k) -> cgood E G (nextc s) (lits d).
Proof.
  intros [B1 B2 B3 B4 _ _ _ _ _] I. rewrite Forall_forall in B1, B2, B3, B4. destruct k as [|[|[|k]]]; cbn [proc_set] in I; [apply B1|apply B2|apply B3|apply B4]; auto.
Qed.
Lemma generate_good G s c copy s' : inv G s -> cgood E G (nextc s) c -> cgood E G (nextc s) copy -> generate_new E K P n s c copy = Some s' -> inv G s' /\ nextc s' = nextc s.
Proof.
  intros HI HC HP H. unfold generate_new in H. pose proof (inv_next _ _ HI) as HN.
  repeat match type of H with match ?g with _ => _ end = _ => let Q := fresh "Q" in destruct g eqn:Q; [|discriminate] end. injection H as <-. split; [|reflexivity].
  apply inv_tmp; auto. apply Forall_app. split; [apply (s_t _ _ (proj2 HI))|]. apply Forall_map. change (Forall (cgood E G (nextc s)) (l ++ l0 ++ l1 ++ l2)).
  repeat (apply Forall_app; split).
  - destruct (eq_factoring K); [|injection Q as <-; constructor]. exact (all_factors_good E K P n HE G (nextc s) HN _ _ _ HC Q).
  - exact (all_eq_res_good E K n HE G (nextc s) HN _ _ HC Q0).
  - exact (all_diseqs_good E K n HE G (nextc s) HN _ _ HC Q1).
  - destruct (_ || _) in Q2; [|injection Q2 as <-; constructor]. refine (all_paramods_good E K P n HE G (nextc s) HN _ _ _ HP _ Q2). intros k d. apply proc_set_good, HI.
Qed.
Lemma insert_proc_good G s c z : inv G s -> gd G (nextc s) c -> inv G (insert_proc s c z) /\ nextc (insert_proc s c z) = nextc s.
Proof.
  intros HI HC. unfold insert_proc. pose proof (proj2 HI) as [B1 B2 B3 B4 B5 B6 B7 B8 B9]. destruct (is_demod (lits c)) eqn:D.
  - assert (GD : gdd G (nextc s) c) by (split; auto). destruct (is_rule (lits c)); (split; [|reflexivity]); apply inv_dates; apply inv_proc; auto.
  - destruct (Nat.eqb _ _); (split; [|reflexivity]); apply inv_proc; auto.
Qed.

Lemma process_good G s s' r : inv G s -> process_clause E K P n s = Some (s', r) -> exists G', ext G s G' s' /\ found_ok G' (nextc s') r.
Proof.
  intros HI H. unfold process_clause in H. cbv zeta in H. set (u := filter _ (unproc s)) in *.
  assert (HU : Forall (gd G (nextc s)) u) by (apply forall_filter, (s_u _ _ (proj2 HI))).
  destruct (choose P s) as [i|]; [|injection H as <- <-; exists G; split; [apply ext_same; auto; apply inv_unproc; auto|apply found_none]].
  destruct (nth_error u i) as [c0|] eqn:NE; [|discriminate].
  set (s0 := set_unproc s (except i u)) in *. assert (I0 : inv G s0) by (apply inv_unproc; auto using forall_except).
  assert (G0 : gd G (nextc s0) c0) by (rewrite Forall_forall in HU; apply HU; eapply nth_error_In; eauto).
  assert (X0 : ext G s G s0) by (apply ext_same; auto).
  match type of H with match ?g with _ => _ end = _ => destruct g as [[s1 [c1|]]|] eqn:FC end; [| |discriminate].
  2:{ injection H as <- <-. eapply forward_contract_good in FC; [|exact I0|exact G0]. destruct FC as [R1 _]. exists G. split; [|apply found_none]. eapply ext_trans; [exact X0|]. apply relink_ext; auto. }
  eapply forward_contract_good in FC; [|exact I0|exact G0]. destruct FC as [R1 G1]. specialize (G1 c1 eq_refl).
  pose proof (relink_ext _ _ _ I0 R1) as X1. pose proof (relink_next _ _ _ R1) as N1. rewrite <- N1 in G1. pose proof (relink_inv _ _ _ I0 R1) as I1.
  assert (X01 : ext G s G s1) by exact (ext_trans _ _ _ _ _ _ X0 X1).
  destruct (lits c1) as [|e1 l1] eqn:LQ; [injection H as <- <-; exists G; split; auto; intros e [= <-]; auto|]. rewrite <- LQ in H. clear LQ e1 l1.
  set (s1a := set_ac s1 (ac_check (ac_handling K) (acs s1) (lits c1))) in *. assert (I1a : inv G s1a) by (apply check_inv; auto).
  assert (X01a : ext G s G s1a) by (eapply ext_trans; [exact X01|apply ext_same; auto]). clear X01 X1 R1 N1. change (nextc s1) with (nextc s1a) in G1. clearbody s1a. clear I1. rename I1a into I1, X01a into X01. clear s1. rename s1a into s1.
  destruct (replacing E K P n s1 c1) as [[s2 [e|c2]]|] eqn:RP; [| |discriminate].
  { injection H as <- <-. destruct (replacing_good _ _ _ _ _ I1 G1 RP) as [G' [X2 F2]]. exists G'. split; [exact (ext_trans _ _ _ _ _ _ X01 X2)|auto]. }
  destruct (replacing_good _ _ _ _ _ I1 G1 RP) as [G' [X2 G2]]. cbn [rep_ok] in G2. assert (X02 : ext G s G' s2) by exact (ext_trans _ _ _ _ _ _ X01 X2). pose proof (proj1 X2) as I2.
  match type of H with context [back_rewrite E K P s2 c2 ?zz] => set (z := zz) in * end.
  destruct (back_rewrite_good G' s2 c2 z I2 G2) as [I3 N3]. set (s3 := back_rewrite E K P s2 c2 z) in *.
  destruct (back_subsume E n s3 (lits c2)) as [s4|] eqn:BS; [|discriminate]. destruct (back_subsume_good _ _ _ _ I3 BS) as [I4 N4].
  destruct (back_unit_good G' s4 (lits c2) I4) as [I5 N5]. destruct (back_context_good G' _ (lits c2) I5) as [I6 N6].
  set (s5 := back_context_sr E K n _ _) in *.
  assert (NX : nextc s5 = nextc s2) by (rewrite N6, N5, N4, N3; reflexivity).
  assert (I7 : inv G' (set_tmp s5 (map set_irv (tmp s5)))).
  { apply inv_tmp; auto. apply Forall_map. exact (s_t _ _ (proj2 I6)). }
  destruct (normalize_vars E n (lits c2)) as [l|] eqn:NV; [|discriminate].
  assert (GL : cgood E G' (nextc s2) l) by (exact (normalize_good E n HE G' (nextc s2) (inv_next _ _ I2) _ _ G2 NV)).
  match type of H with context [insert_proc ?a ?b ?c] => destruct (insert_proc_good G' a b c I7) as [I8 N8]; [unfold gd; cbn [set_tmp nextc lits]; rewrite NX; exact GL|]; set (s7 := insert_proc a b c) in * end.
  cbn [set_tmp nextc] in N8. rewrite NX in N8.
  match type of H with match ?g with _ => _ end = _ => destruct g as [s8|] eqn:GN end; [|discriminate].
  assert (X8 : inv G' s8 /\ nextc s8 = nextc s2).
  { destruct (generate K); [|injection GN as <-; auto]. rewrite <- N8. eapply generate_good; [exact I8| | |exact GN]; rewrite N8; auto.
    apply copy_disjoint_good; auto; [apply (inv_next _ _ I2)|apply (co_alt _ _ _ HK)]. }
  destruct X8 as [I9 N9].
  assert (I10 : inv G' (set_tmp s8 (pick (tmp_order P s8) (tmp s8)))) by (apply inv_tmp; auto; apply pick_forall, (s_t _ _ (proj2 I9))).
  destruct (insert_new_good _ _ _ _ _ _ I10 (Forall_nil _) H) as [G3 [X10 F10]]. exists G3. split; auto. eapply ext_trans; [exact X02|]. eapply ext_trans; [|exact X10]. apply ext_same; auto.
Qed.

Lemma contract_set_good nu lv : forall cs G s acc s' r, inv G s -> Forall (gd G (nextc s)) cs -> Forall (gd G (nextc s)) acc -> contract_set E K P n nu lv s cs acc = Some (s', r) ->
  ext G s G s' /\ found_ok G (nextc s') r.
Proof.
  induction cs as [|c cs IH]; intros G s acc s' r HI HC HA H; cbn [contract_set] in H.
  - injection H as <- <-. split; [|apply found_none]. apply ext_same; auto. apply inv_unproc; auto. apply Forall_rev; auto.
  - inversion HC as [|? ? Gc Gcs]; subst. destruct (forward_contract E K P n nu false false lv s c) as [[s1 [c1|]]|] eqn:FC; [| |discriminate].
    + destruct (forward_contract_good _ _ _ _ _ _ _ _ _ HI Gc FC) as [R1 G1]. specialize (G1 c1 eq_refl). pose proof (relink_ext _ _ _ HI R1) as X1. pose proof (relink_next _ _ _ R1) as N1. rewrite <- N1 in *.
      assert (H' : (lits c1 = [] /\ Some (set_unproc s1 (rev acc ++ cs), Some c1) = Some (s', r)) \/ contract_set E K P n nu lv s1 cs (c1 :: acc) = Some (s', r)) by (destruct (lits c1); [left; auto|right; exact H]).
      clear H. destruct H' as [[LE H]|H].
      * injection H as <- <-. split.
        -- eapply ext_trans; [exact X1|]. apply ext_same; auto. apply inv_unproc; [apply X1|]. apply Forall_app. split; auto. apply Forall_rev; auto.
        -- intros e [= <-]. split; auto.
      * destruct (IH G s1 (c1 :: acc) s' r (proj1 X1) Gcs ltac:(constructor; auto) H) as [A B]. split; auto. eapply ext_trans; eauto.
    + destruct (forward_contract_good _ _ _ _ _ _ _ _ _ HI Gc FC) as [R1 _]. pose proof (relink_ext _ _ _ HI R1) as X1. pose proof (relink_next _ _ _ R1) as N1. rewrite <- N1 in *.
      destruct (IH G s1 acc s' r (proj1 X1) Gcs HA H) as [A B]. split; auto. eapply ext_trans; eauto.
Qed.
Lemma cleanup_good G s s' r : inv G s -> cleanup E K P n s = Some (s', r) -> ext G s G s' /\ found_ok G (nextc s') r.
Proof.
  intros HI H. unfold cleanup in H. cbv zeta in H. match type of H with context [set_unproc s ?u] => set (s1 := set_unproc s u) in * end.
  assert (I1 : inv G s1) by (apply inv_unproc; auto; apply forall_filter, (s_u _ _ (proj2 HI))). assert (X1 : ext G s G s1) by (apply ext_same; auto).
  match type of H with match ?g with _ => _ end = _ => destruct g as [[s2 r2]|] eqn:CS end; [|discriminate].
  assert (X2 : ext G s1 G s2 /\ found_ok G (nextc s2) r2).
  { destruct (contract_all P s1); [|injection CS as <- <-; split; [apply ext_refl; auto|apply found_none]]. eapply contract_set_good; [exact I1| | |exact CS]; auto. apply (s_u _ _ (proj2 I1)). }
  destruct X2 as [X2 F2]. destruct r2 as [e|]; injection H as <- <-.
  - split; [exact (ext_trans _ _ _ _ _ _ X1 X2)|exact F2].
  - split; [|apply found_none]. eapply ext_trans; [exact X1|]. eapply ext_trans; [exact X2|]. apply ext_same; auto. apply inv_unproc; [apply X2|]. apply forall_filter, (s_u _ _ (proj2 (proj1 X2))).
Qed.
Lemma saturate_good : forall k G s s' r, inv G s -> saturate E K P n k s = Some (s', r) -> exists G', ext G s G' s' /\ found_ok G' (nextc s') r.
Proof.
  induction k as [|k IH]; intros G s s' r HI H; cbn [saturate] in H.
  - injection H as <- <-. exists G. split; [apply ext_refl; auto|apply found_none].
  - destruct (unproc s); [injection H as <- <-; exists G; split; [apply ext_refl; auto|apply found_none]|].
    destruct (process_clause E K P n s) as [[s1 r1]|] eqn:PC; [|discriminate]. destruct (process_good _ _ _ _ HI PC) as [G1 [X1 F1]].
    destruct r1 as [e|]; [injection H as <- <-; exists G1; auto|].
    destruct (cleanup E K P n s1) as [[s2 r2]|] eqn:CL; [|discriminate]. destruct (cleanup_good _ _ _ _ (proj1 X1) CL) as [X2 F2].
    assert (X12 : ext G s G1 s2) by exact (ext_trans _ _ _ _ _ _ X1 X2).
    destruct r2 as [e|]; [injection H as <- <-; exists G1; auto|].
    destruct (IH G1 (tick s2) s' r (inv_tick _ _ (proj1 X2)) H) as [G' [X3 F3]]. exists G'. split; auto. eapply ext_trans; [exact X12|]. eapply ext_trans; [|exact X3]. apply ext_same; auto. apply inv_tick, X2.
Qed.
Lemma filter_unproc_good : forall desc G s s' r, inv G s -> filter_unproc E K P n desc s = Some (s', r) -> ext G s G s' /\ found_ok G (nextc s') r.
Proof.
  induction desc as [|[nu lv] desc IH]; intros G s s' r HI H; cbn [filter_unproc] in H; [injection H as <- <-; split; [apply ext_refl; auto|apply found_none]|].
  destruct (contract_set E K P n nu lv s (unproc s) []) as [[s1 r1]|] eqn:CS; [|discriminate].
  destruct (contract_set_good _ _ _ _ _ _ _ _ HI (s_u _ _ (proj2 HI)) (Forall_nil _) CS) as [X1 F1]. destruct r1 as [e|]; [injection H as <- <-; auto|].
  destruct (IH _ _ _ _ (proj1 X1) H) as [X2 F2]. split; auto. eapply ext_trans; eauto.
Qed.
End Pol.

Lemma init_inv : inv N0 (init K n0 N0).
Proof.
  split; [split; [apply moves_refl|intros d p []]|]. constructor; cbn [init rules eqns negs nons unproc tmp links nextc]; try solve [constructor].
  - apply Forall_map. apply Forall_forall. intros c Hc. unfold gd. cbn [new_cl lits]. split.
    + apply lgood_split. rewrite Forall_forall in HOK, HB. split; [apply HOK; auto|]. apply below_lok. auto.
    + intros M HM HT. apply HT. auto.
  - intros t u a b Q. discriminate.
  - cbn [acs]. destruct (init_justified (ac_handling K) N0) as [J I]. split; auto. apply Forall_forall. intros c Hc. apply I in Hc. split.
    + apply lgood_split. rewrite Forall_forall in HOK, HB. split; [apply HOK; auto|]. apply below_lok. auto.
    + intros M HM HT. apply HT. auto.
Qed.
End Inv.
