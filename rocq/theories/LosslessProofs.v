(** * A model of what a step leaves is a model of what was there before. *)
From Coq Require Import Permutation.
From Verif Require Import Terms Unify UnifyProofs Semantics Clauses ClausesProofs LitOrder MatchProofs Infer InferProofs Subsume SubsumeProofs SubsumeSpec SubsumeClause SubsumeUnits SubsumeCond Taut Rewrite RewriteProofs RewriteHist Split SplitProofs SplitSemProofs SplitProps Saturate SaturateSyms SaturateRw SaturateStep AC ACScan ACProps SaturateProofs Lossless LosslessStep.
Local Open Scope nat_scope.

Section Keep.
Variables (E : env) (K : conf) (n : nat) (n0 : sym) (N0 : list clause).
Hypothesis HE : env_ok E.
Hypothesis HK : conf_ok E K n0.
Hypothesis H0 : 2 < n0.
Hypothesis HOK : Forall (clause_ok E) N0.
Hypothesis HB : Forall (below n0) N0.
Hypothesis HNum : numbered K.
Variable P : policy.
Variable D : list clause.
Notation SS := (srt E).
Notation inv := (inv E K n0 N0).
Notation gd := (gd E).
Notation gdd := (gdd E).

(** the facts of a state are among [D], and its links are consequences of [D] *)
Record known (s : state) : Prop := {
  n_r : Forall (fun c => follows E D (lits c)) (rules s); n_e : Forall (fun c => follows E D (lits c)) (eqns s);
  n_a : Forall (follows E D) (ac_axioms (acs s)); n_l : links_ok E (nextc s) D (links s) }.
Lemma known_gdd G N l : Forall (gdd G N) l -> Forall (fun c => follows E D (lits c)) l -> Forall (gdd D N) l.
Proof. rewrite !Forall_forall. intros A B c Hc. destruct (A c Hc) as [[X _] Y]. split; auto. split; auto. Qed.
Lemma known_enum G s : inv G s -> known s -> forall i t z d, In d (dem_enum P s i t z) -> dgood E (nextc s) D d.
Proof.
  intros [_ HS] HD i t z d I. apply pick_in in I. destruct i; refine (dems_good E D (nextc s) _ _ d I).
  - exact (known_gdd _ _ _ (s_r _ _ _ _ HS) (n_r _ HD)).
  - exact (known_gdd _ _ _ (s_e _ _ _ _ HS) (n_e _ HD)).
Qed.
Lemma known_links s W : known s -> links_ok E (nextc s) D W -> known (set_links s W).
Proof. intros [A B C F] H. constructor; auto. Qed.

Section Model.
Variable M : structure.
Hypothesis HM : model_ok SS (dist E) M.
Hypothesis HD : forall c, In c D -> clause_true SS M c.
Notation tr := (clause_true SS M).
Notation trc := (fun c : cl => clause_true SS M (lits c)).

Record TP (s : state) : Prop := { tp_r : Forall trc (rules s); tp_e : Forall trc (eqns s); tp_g : Forall trc (negs s); tp_n : Forall trc (nons s) }.
Record TR (s : state) : Prop := { tr_p : TP s; tr_u : Forall trc (unproc s); tr_t : Forall trc (tmp s) }.

Lemma li_nf_back lv G s c s' c' : inv G s -> gd G (nextc s) c -> known s -> li_nf E K P n lv s c = Some (s', c') -> known s' /\ (trc c' -> trc c).
Proof.
  intros HI HC HD' H. pose proof HI as [_ HS]. unfold li_nf in H.
  assert (X : forall full, match clause_nf E (gtb K) (strong_inst K) (minterm K) (dem_enum P s) (set_date (rdate s) (edate s)) full n (links s) (lits c) (limited c) with
         | Some (W, l, lim) => Some (set_links s W, with_lits c l lim) | None => None end = Some (s', c') -> known s' /\ (trc c' -> trc c)).
  { intros full X. match type of X with match ?g with _ => _ end = _ => destruct g as [[[W l] lim]|] eqn:Q end; [|discriminate]. injection X as <- <-.
    destruct (clause_nf_links E (gtb K) (strong_inst K) (minterm K) (nextc s) D (min_good _ _ _ HK H0 _ (s_next _ _ _ _ HS)) (dem_enum P s) _ full (known_enum G s HI HD') n (lits c) (links s) (limited c) W l lim (n_l _ HD') (proj1 HC) Q) as [A [B C]].
    split; [apply known_links; auto|]. cbn [with_lits lits]. intros T v Hv. apply (C M HM HD v Hv). apply T; auto. }
  destruct lv; [injection H as <- <-; split; auto| |]; eapply X; eauto.
Qed.
Lemma relink_TP G s s' : relink E G s s' -> TP s' <-> TP s.
Proof. intros [W [-> _]]. split; intros [A B C F]; constructor; auto. Qed.
Lemma units_true l : Forall trc l -> all_true E M (units_of l).
Proof.
  intros H u Hu. unfold units_of in Hu. apply in_flat_map in Hu. destruct Hu as [c [I Hu]]. rewrite Forall_forall in H. specialize (H c I). cbn beta in H.
  unfold unit_true. destruct (lits c) as [|e [|? ?]] eqn:Q; try destruct Hu as [<-|Hu]; try exact H; [destruct Hu| |destruct Hu]. destruct (ori e); [destruct Hu|destruct Hu as [<-|[]]; exact H].
Qed.
Lemma pick_true us ix : all_true E M us -> all_true E M (pick ix us).
Proof. intros H u Hu. apply H. eapply pick_in; eauto. Qed.

Lemma forward_modify_back cond lv G : forall k s c s' c' b, inv G s -> gd G (nextc s) c -> known s -> forward_modify E K P n k cond lv s c = Some (s', c', b) ->
  known s' /\ (TP s -> (trc c' -> trc c) /\ (b = true -> trc c')).
Proof.
  induction k as [|k IH]; intros s c s' c' b HI HC HD' H; [discriminate|]. cbn [forward_modify] in H. pose proof (inv_next _ _ _ _ H0 _ _ HI) as HN.
  destruct (li_nf E K P n lv s c) as [[s1 c1]|] eqn:L; [|discriminate]. destruct (li_nf_good E K n n0 N0 HK H0 P _ _ _ _ _ _ HI HC L) as [R1 G1].
  destruct (li_nf_back _ _ _ _ _ _ HI HC HD' L) as [D1 B1]. cbv zeta in H.
  pose proof (superfluous_good E G (nextc s) c1 G1) as G2'.
  assert (G2 : gd G (nextc s) (ac_resolve (acs s1) (superfluous E c1))).
  { rewrite <- (relink_next _ _ _ _ R1) in G2' |- *. apply (ac_resolve_good E n0); auto. eapply relink_good; [exact (proj2 HI)|exact R1]. }
  assert (B2 : trc (ac_resolve (acs s1) (superfluous E c1)) -> trc c) by (intros T; apply B1; apply (superfluous_back E M); apply (ac_resolve_back E M (acs s1)); exact T).
  set (c2 := ac_resolve (acs s1) (superfluous E c1)) in *.
  destruct (if local_rewriting K then local_rw E K n c2 else Some c2) as [c3|] eqn:LR; [|discriminate].
  assert (G3 : gd G (nextc s) c3).
  { destruct (local_rewriting K); [|injection LR as <-; auto]. exact (local_rw_good E K n HE G (nextc s) HN c2 c3 G2 LR). }
  assert (B3 : trc c3 -> trc c).
  { intros T. apply B2. destruct (local_rewriting K); [|injection LR as <-; auto]. exact (local_rw_back E K n HE M HM (nextc s) HN c2 c3 (proj1 G2) LR T). }
  pose proof (orient_good E K G (nextc s) _ G3) as G4.
  assert (B4 : tr (orient K (lits c3)) -> trc c) by (intros T; apply B3; apply (orient_back E K M); exact T). set (l4 := orient K (lits c3)) in *.
  match type of H with match ?g with _ => _ end = _ => destruct g as [l5|] eqn:CD end; [|discriminate].
  assert (G5 : cgood E G (nextc s) l5).
  { destruct cond; [|injection CD as <-; auto]. destruct (condense E n l4) as [d| |] eqn:CQ; try discriminate. injection CD as <-. apply orient_good. exact (condense_good E n HE G (nextc s) HN l4 d G4 CQ). }
  assert (B5 : tr l5 -> trc c).
  { intros T. apply B4. destruct cond; [|injection CD as <-; auto]. destruct (condense E n l4) as [d| |] eqn:CQ; try discriminate. injection CD as <-. apply (orient_back E K M) in T.
    exact (condense_back E n HE M HM l4 d (cgood_ok _ _ _ _ G4) CQ T). }
  destruct (clause_is_trivial _ E l5) as [[|]|] eqn:TV; [injection H as <- <- <-; split; auto; intros HT; split; [exact B5|]; intros _; apply (trivial_back E K M HM _ HNum); exact TV| |discriminate].
  pose proof (relink_good _ _ _ _ _ (proj2 HI) R1) as S1. pose proof (relink_next _ _ _ _ R1) as NX.
  match type of H with match ?g with _ => _ end = _ => destruct g as [[l6 u1]|] eqn:PS end; [|discriminate].
  assert (UP : Forall (ugood E G (nextc s)) (pos_units P s1 l5)) by (rewrite <- NX; apply (pos_units_good E n0); auto).
  assert (G6 : cgood E G (nextc s) l6).
  { destruct (Nat.eqb (neg_no l5) 0); [injection PS as <- _; auto|]. eapply pos_sr_good; [| |exact PS]; auto. }
  assert (B6 : TP s -> tr l6 -> tr l5).
  { intros HT. pose proof (proj2 (relink_TP _ _ _ R1) HT) as T1. destruct (Nat.eqb (neg_no l5) 0); [injection PS as <- _; auto|]. pose proof (pos_sr_ok E n (strong_subsumption K) _ (ugood_ok _ _ _ _ UP) l5 (cgood_ok _ _ _ _ G5)) as X. rewrite PS in X.
    destruct X as [U1 [_ [_ EQ]]]. intros T v Hv. apply (EQ M HM); auto. pose proof (pick_true _ (unit_order P s1 l5) (units_true _ (tp_e _ T1))) as AT. destruct (strong_subsumption K); [exact AT|]. intros u Hu. apply AT, U1, Hu. }
  match type of H with match ?g with _ => _ end = _ => destruct g as [[l7 u2]|] eqn:NS end; [|discriminate].
  assert (UN : Forall (ugood E G (nextc s)) (neg_units P s1 l6)) by (rewrite <- NX; apply (neg_units_good E n0); auto).
  assert (G7 : cgood E G (nextc s) l7).
  { destruct (Nat.eqb (pos_no l6) 0); [injection NS as <- _; auto|]. eapply neg_sr_good; [| |exact NS]; auto. }
  assert (B7 : TP s -> tr l7 -> tr l6).
  { intros HT. pose proof (proj2 (relink_TP _ _ _ R1) HT) as T1. destruct (Nat.eqb (pos_no l6) 0); [injection NS as <- _; auto|]. pose proof (neg_sr_ok E n _ (ugood_ok _ _ _ _ UN) l6 (cgood_ok _ _ _ _ G6)) as X. rewrite NS in X.
    destruct X as [U1 [_ [_ EQ]]]. intros T v Hv. apply (EQ M HM); auto. pose proof (pick_true _ (unit_order P s1 l6) (units_true _ (tp_g _ T1))) as AT. intros u Hu. apply AT, U1, Hu. }
  destruct (Bool.eqb _ _); [injection H as <- <- <-; split; auto; intros HT; split; [cbn [with_lits lits]; auto|discriminate]|].
  eapply IH in H; [|exact (relink_inv _ _ _ _ _ _ _ HI R1)|unfold SaturateProofs.gd; cbn [with_lits lits]; rewrite NX; exact G7|exact D1]. destruct H as [D2 T2]. cbn [with_lits lits] in T2. split; auto. intros HT.
  destruct (T2 (proj2 (relink_TP _ _ _ R1) HT)) as [T3 T4]. split; [intros T; apply B5, (B6 HT), (B7 HT), T3; exact T|exact T4].
Qed.
Lemma subsumption_back nu G s l l' b : inv G s -> cgood E G (nextc s) l -> TP s -> forward_subsumption E K P n nu s l = Some (l', b) -> (tr l' -> tr l) /\ (b = true -> tr l).
Proof.
  intros HI HC HT H. pose proof (proj2 HI) as HS. unfold forward_subsumption in H. pose proof (cgood_ok _ _ _ _ HC) as OK.
  assert (U : forall us, Forall (ugood E G (nextc s)) us -> all_true E M us -> forall p, unit_set_subsumes E n (strong_subsumption K) us l = Found p -> tr l).
  { intros us A B p Q. pose proof (unit_set_subsumes_ok E n (strong_subsumption K) us (ugood_ok _ _ _ _ A) l OK) as X. rewrite Q in X. destruct X as [I X]. apply (X M HM). destruct (strong_subsumption K); auto. }
  destruct (if Nat.eqb (pos_no l) 0 then _ else _) as [p| | |] eqn:Q1; try discriminate.
  { injection H as <- <-. split; auto. intros _. destruct (Nat.eqb (pos_no l) 0); [discriminate|]. eapply (U (pos_units P s l)); [apply (pos_units_good E n0); auto|apply pick_true, units_true, HT|exact Q1]. }
  destruct (if Nat.eqb (neg_no l) 0 then _ else _) as [p| | |] eqn:Q2; try discriminate.
  { injection H as <- <-. split; auto. intros _. destruct (Nat.eqb (neg_no l) 0); [discriminate|]. eapply (U (neg_units P s l)); [apply (neg_units_good E n0); auto|apply pick_true, units_true, HT|exact Q2]. }
  destruct (_ && _); [|injection H as <- <-; split; [auto|discriminate]]. cbv zeta in H.
  assert (OKs : clause_ok E (sort_lits l)) by (eapply cgood_ok; apply sort_good; exact HC).
  assert (OKn : Forall (clause_ok E) (map lits (nons s))) by (apply Forall_map; eapply Forall_impl; [|exact (s_n _ _ _ _ HS)]; intros c; apply cgood_ok).
  pose proof (set_subsumes_ok E n (sort_lits l) OKs (map lits (nons s)) OKn) as X.
  destruct (set_subsumes _ _ _ _) as [c| | |]; try discriminate; injection H as <- <-; (split; [apply sort_back|]); [intros _|discriminate].
  destruct X as [I X]. apply sort_back. apply (clause_subsumes_true E n M c (sort_lits l)); auto; [rewrite Forall_forall in OKn; auto|].
  apply in_map_iff in I. destruct I as [d [<- I]]. pose proof (tp_n _ HT) as TN. rewrite Forall_forall in TN. apply TN; auto.
Qed.
Lemma discard_back G s m c : inv G s -> known s -> clause_ok E c -> ac_discard m (acs s) c = true -> tr c.
Proof.
  intros [_ HS] HD' OC H. destruct (s_a _ _ _ _ HS) as [J F].
  assert (OA : Forall (clause_ok E) (ac_axioms (acs s))) by (eapply Forall_impl; [|exact F]; intros d; apply cgood_ok).
  intros v Hv. refine (C58_discarded E m (acs s) c M _ OC HM _ H v Hv); [apply justified_ok; auto|].
  apply (justified_respects E (acs s) J OA M v Hv). intros d Hd. pose proof (n_a _ HD') as A. rewrite Forall_forall in A. apply (A d Hd M HM HD).
Qed.
Lemma forward_contract_back nu csr cond lv G s c s' r : inv G s -> gd G (nextc s) c -> known s -> forward_contract E K P n nu csr cond lv s c = Some (s', r) ->
  known s' /\ (TP s -> match r with Some c' => trc c' -> trc c | None => trc c end).
Proof.
  intros HI HC HD' H. unfold forward_contract in H. cbv zeta in H.
  assert (FIN : forall s1 c1 s2 r, match mark_maximal K (select_lits P s1 (lits c1)) with Some l => Some (s1, Some (with_lits c1 l (limited c1))) | None => None end = Some (s2, r) ->
     s2 = s1 /\ match r with Some c' => trc c' -> trc c1 | None => False end).
  { clear. intros s1 c1 s2 r0 Q. destruct (mark_maximal K _) as [l|] eqn:MM; [|discriminate]. injection Q as <- <-. split; auto. cbn [with_lits lits]. intros T. eapply select_back. eapply mark_back; [exact MM|exact T]. }
  destruct (given_simpl K).
  - destruct (forward_modify E K P n n cond lv s c) as [[[s1 c1] b]|] eqn:FM; [|discriminate].
    destruct (forward_modify_good E K n n0 N0 HE HK H0 P _ _ _ _ _ _ _ _ _ HI HC FM) as [R1 G1].
    destruct (forward_modify_back _ _ _ _ _ _ _ _ _ HI HC HD' FM) as [D1 BB].
    destruct b; [injection H as <- <-; split; auto; intros HT; destruct (BB HT) as [B1 BT]; auto|].
    pose proof (relink_inv _ _ _ _ _ _ _ HI R1) as I1. pose proof (relink_next _ _ _ _ R1) as NX. rewrite <- NX in G1.
    pose proof (cgood_ok _ _ _ _ G1) as OK1.
    assert (H' : (lits c1 = [] /\ Some (s1, Some c1) = Some (s', r)) \/ (ac_discard (ac_handling K) (acs s1) (lits c1) = true /\ Some (s1, None) = Some (s', r)) \/ match clause_is_tautology (eno K) (max_neg K) E n (lits c1) with
            | TAns true => Some (s1, None)
            | TAns false =>
                match forward_subsumption E K P n nu s1 (lits c1) with
                | None => None
                | Some (_, true) => Some (s1, None)
                | Some (l2, false) =>
                    if csr && Nat.ltb 1 (length l2) then
                      match contextual_sr E n (map lits (nons s1)) l2 with
                      | None => None
                      | Some (l3, used) => let c2 := (with_lits c1 (sort_lits l3) (limited c1 && match used with [] => true | _ => false end)) in
                           match mark_maximal K (select_lits P s1 (lits c2)) with Some l => Some (s1, Some (with_lits c2 l (limited c2))) | None => None end
                      end
                    else let c2 := with_lits c1 l2 (limited c1) in match mark_maximal K (select_lits P s1 (lits c2)) with Some l => Some (s1, Some (with_lits c2 l (limited c2))) | None => None end
                end
            | _ => None
            end = Some (s', r)) by (destruct (lits c1); [left; auto|right; destruct (ac_discard _ _ _); [left; split; auto|right]; exact H]).
    clear H. destruct H' as [[_ H]|[[AD H]|H]]; [injection H as <- <-; split; auto; intros HT; apply (BB HT)|injection H as <- <-; split; auto; intros HT; apply (BB HT); eapply discard_back; eauto|].
    destruct (clause_is_tautology _ _ _ _ _) as [[|]| |] eqn:TA; try discriminate; [injection H as <- <-; split; auto; intros HT; apply (BB HT); eapply (tautology_back E K HE M HM); eauto|].
    destruct (forward_subsumption E K P n nu s1 (lits c1)) as [[l2 [|]]|] eqn:FS; [| |discriminate]; pose proof (fun T1 => subsumption_back _ _ _ _ _ _ I1 G1 T1 FS) as BS.
    { injection H as <- <-. split; auto. intros HT. apply (BB HT). apply (proj2 (BS (proj2 (relink_TP _ _ _ R1) HT))). reflexivity. }
    pose proof (subsumption_good E K n P nu G s1 _ _ _ G1 FS) as G2.
    destruct (csr && _).
    + destruct (contextual_sr _ _ _ _) as [[l3 us]|] eqn:CS; [|discriminate].
      assert (B3 : TP s -> tr l3 -> tr l2).
      { intros HT. pose proof (proj2 (relink_TP _ _ _ R1) HT) as T1. assert (OKs : Forall (clause_ok E) (map lits (nons s1))) by (apply Forall_map; eapply Forall_impl; [|exact (s_n _ _ _ _ (proj2 I1))]; intros d; apply cgood_ok).
        pose proof (contextual_sr_ok E n _ l2 OKs (cgood_ok _ _ _ _ G2)) as X. rewrite CS in X. destruct X as [U1 [_ EQ]]. intros T v Hv. apply (EQ M HM); auto.
        intros d Hd. apply U1 in Hd. apply in_map_iff in Hd. destruct Hd as [d' [<- Hd]]. pose proof (tp_n _ T1) as TN. rewrite Forall_forall in TN. apply TN; auto. }
      cbv zeta in H. apply FIN in H. destruct H as [-> H]. split; auto. intros HT. destruct r as [c'|]; [|destruct H]. intros T. apply (BB HT). apply (proj1 (BS (proj2 (relink_TP _ _ _ R1) HT))). apply (B3 HT). apply (sort_back E M). exact (H T).
    + cbv zeta in H. apply FIN in H. destruct H as [-> H]. split; auto. intros HT. destruct r as [c'|]; [|destruct H]. intros T. apply (BB HT). apply (proj1 (BS (proj2 (relink_TP _ _ _ R1) HT))). exact (H T).
  - destruct (lits c) as [|e0 l0] eqn:Q; [injection H as <- <-; split; auto; rewrite Q; auto|]. rewrite <- Q in H.
    apply FIN in H. destruct H as [-> H]. split; auto. intros _. destruct r as [c'|]; [|destruct H]. rewrite <- Q. exact H.
Qed.

(** *** insert_new_clauses *)
Definition kept (s s' : state) : Prop :=
  rules s' = rules s /\ eqns s' = eqns s /\ negs s' = negs s /\ nons s' = nons s /\ acs s' = acs s /\ incl (defs s) (defs s').
Lemma kept_refl s : kept s s. Proof. repeat split; auto. apply incl_refl. Qed.
Lemma kept_trans s1 s2 s3 : kept s1 s2 -> kept s2 s3 -> kept s1 s3.
Proof. intros [A1 [A2 [A3 [A4 [A5 A6]]]]] [B1 [B2 [B3 [B4 [B5 B6]]]]]. repeat split; try congruence. eapply incl_tran; eauto. Qed.
Lemma kept_TP s s' : kept s s' -> TP s' -> TP s.
Proof. intros [A1 [A2 [A3 [A4 _]]]] [T1 T2 T3 T4]. constructor; congruence. Qed.
Lemma kept_relink G s s' : relink E G s s' -> kept s s' /\ unproc s' = unproc s /\ tmp s' = tmp s.
Proof. intros [W [-> _]]. repeat split; auto. apply incl_refl. Qed.
Lemma kept_tmp s s' t : kept s s' -> kept s (set_tmp s' t). Proof. intros H. exact H. Qed.
Definition defs_true (s : state) : Prop := forall d p, In (d, p) (defs s) -> tr (def_lit E p true [] :: d).
Lemma kept_defs s s' : kept s s' -> defs_true s' -> defs_true s.
Proof. intros [_ [_ [_ [_ [_ I]]]]] H d p Hd. apply H, I, Hd. Qed.
Lemma known_tmp s t : known s -> known (set_tmp s t). Proof. intros [A B C F]. constructor; auto. Qed.
Lemma known_unproc s t : known s -> known (set_unproc s t). Proof. intros [A B C F]. constructor; auto. Qed.
Lemma make_defs_incl fd : forall bs st m join ds j st' n', make_defs E (lookup K) fd [] bs st m join = (ds, j, st', n') -> incl st st'.
Proof.
  induction bs as [|l bs IH]; intros st m join ds j st' n' H; cbn [make_defs] in H; [injection H as _ _ <- _; apply incl_refl|].
  destruct (one_def E (lookup K) fd [] st m l) as [[[p1 d1] st1] n1] eqn:O. destruct (make_defs E (lookup K) fd [] bs st1 n1 _) as [[[ds2 j2] st2] n2] eqn:MD. injection H as _ _ <- _.
  apply IH in MD. eapply incl_tran; [|exact MD]. apply (one_def_round E (lookup K) (co_lookup _ _ _ HK)) in O.
  destruct O as [st'' [->|[_ ->]]|d0 p0 _ _ _]; auto using incl_refl. apply incl_tl, incl_refl.
Qed.
Lemma split_keeps G s l s' cs : inv G s -> cgood E G (nextc s) l -> known s -> controlled_split E K P s l = Some (Some (s', cs)) ->
  kept s s' /\ unproc s' = unproc s /\ tmp s' = tmp s /\ known s' /\ (defs_true s -> Forall trc cs -> tr l).
Proof.
  intros HI HC HD' H. destruct (split_good E K n0 N0 HE HK H0 HOK HB P _ _ _ _ _ HI HC H) as [G' [_ [_ [LE _]]]].
  unfold controlled_split in H. destruct (split_wanted K l); [|discriminate].
  destruct (clause_split _ _ _ _ _ _ _ _ _) as [[r|]|] eqn:CS; try discriminate. injection H as <- <-.
  destruct (clause_split_inv _ _ _ _ _ _ _ _ _ _ CS) as [bs [_ [MD _]]]. apply make_defs_incl in MD.
  split; [repeat split; auto|]. split; [reflexivity|]. split; [reflexivity|]. cbn [set_defs nextc] in LE. split.
  - destruct HD' as [A B C F]. constructor; cbn [set_defs rules eqns acs links nextc]; auto. eapply links_mono; [apply incl_refl|exact LE|exact F].
  - intros DT T. destruct HI as [[MV HS] HG].
    assert (TB : forall sv : list var, sv = [] -> tabulable sv) by (intros sv ->; apply tabulable_nil).
    destruct (moves_inv E HE (lookup K) (co_lookup _ _ _ HK) (fun sv => sv = []) N0 n0 _ TB HOK HB H0 MV) as [[_ [_ [SO _]]] _]. cbn [pstore pnext] in SO.
    refine (split_back E K HE M HM _ _ _ _ _ _ _ (co_lookup _ _ _ HK) _ _ SO _ _ CS _ DT).
    + eapply cgood_ok; eauto.
    + apply (below_lok (nextc s)). eapply cgood_lok; eauto.
    + intros f Hf. apply (co_decl _ _ _ HK (new_next r)). pose proof (s_next _ _ _ _ HG). lia.
    + pose proof (s_next _ _ _ _ HG). lia.
    + rewrite Forall_map in T. rewrite Forall_forall in T. exact T.
Qed.

Lemma insert_new_back : forall k G s acc s', inv G s -> Forall (gd G (nextc s)) acc -> known s -> insert_new E K P n k s acc = Some (s', None) ->
  kept s s' /\ known s' /\ (defs_true s' -> TR s' -> TR s /\ Forall trc acc).
Proof.
  induction k as [|k IH]; intros G s acc s' HI HA HD' H; [discriminate|]. cbn [insert_new] in H. destruct (tmp s) as [|h rest] eqn:T.
  - injection H as <-. split; [repeat split; auto; apply incl_refl|]. split; [apply known_unproc; auto|]. intros _ [[A B C F] TU TT]. cbn [set_unproc rules eqns negs nons unproc tmp] in *.
    apply Forall_app in TU. destruct TU as [TU TA]. split; [constructor; auto; constructor; auto|]. apply Forall_rev in TA. rewrite rev_involutive in TA. exact TA.
  - cbv zeta in H. pose proof (s_t _ _ _ _ (proj2 HI)) as HT. rewrite T in HT. inversion HT as [|? ? Gh Gr]; subst. set (s0 := set_tmp s rest) in *.
    assert (I0 : inv G s0) by (apply inv_tmp; auto). assert (D0 : known s0) by (apply known_tmp; auto).
    assert (REC : forall G1 s1 acc1 x, ext E K n0 N0 G s G1 s1 -> Forall (gd G1 (nextc s1)) acc1 -> known s1 -> kept s s1 -> unproc s1 = unproc s -> tmp s1 = rest ++ x ->
      insert_new E K P n k s1 acc1 = Some (s', None) -> (TP s -> defs_true s1 -> Forall trc acc1 -> Forall trc x -> trc h /\ Forall trc acc) ->
      kept s s' /\ known s' /\ (defs_true s' -> TR s' -> TR s /\ Forall trc acc)).
    { intros G1 s1 acc1 x X A1 D1 KE QU QT Q BK. destruct (IH G1 s1 acc1 s' (proj1 X) A1 D1 Q) as [K2 [D2 B2]]. split; [eapply kept_trans; eauto|]. split; auto.
      intros DT TS. destruct (B2 DT TS) as [[TP1 TU1 TT1] TA1]. pose proof (kept_TP _ _ KE TP1) as TPs. rewrite QU in TU1. rewrite QT in TT1. apply Forall_app in TT1. destruct TT1 as [TR1 TX].
      destruct (BK TPs (kept_defs _ _ K2 DT) TA1 TX) as [Th TA]. split; auto. constructor; auto. rewrite T. constructor; auto. }
    match type of H with match ?g with _ => _ end = _ => destruct g as [[[s1 h1] b1]|] eqn:F1 end; [|discriminate].
    assert (X1 : relink E G s0 s1 /\ gd G (nextc s) h1 /\ known s1 /\ (TP s0 -> trc h1 -> trc h)).
    { destruct (irv h); [|injection F1 as <- <- _; split; [apply relink_refl with (n0 := n0); apply I0|]; auto].
      destruct (forward_modify_good E K n n0 N0 HE HK H0 P _ _ _ _ _ _ _ _ _ I0 Gh F1) as [A B]. destruct (forward_modify_back _ _ _ _ _ _ _ _ _ I0 Gh D0 F1) as [C F].
      split; auto. split; auto. split; auto. intros TPs. apply (F TPs). }
    destruct X1 as [R1 [G1 [D1 B1]]]. pose proof (relink_inv _ _ _ _ _ _ _ I0 R1) as I1. pose proof (relink_next _ _ _ _ R1) as N1. change (nextc s0) with (nextc s) in N1.
    match type of H with match ?g with _ => _ end = _ => destruct g as [[[s2 h2] b2]|] eqn:F2 end; [|discriminate].
    assert (G1' : gd G (nextc s1) (mkcl (lits h1) (cdate h1) (limited h1) false (isproc h1))) by (rewrite N1; exact G1).
    destruct (forward_modify_good E K n n0 N0 HE HK H0 P _ _ _ _ _ _ _ _ _ I1 G1' F2) as [R2 G2]. destruct (forward_modify_back _ _ _ _ _ _ _ _ _ I1 G1' D1 F2) as [D2 B2].
    pose proof (relink_inv _ _ _ _ _ _ _ I1 R2) as I2. pose proof (relink_next _ _ _ _ R2) as N2. rewrite N1 in *.
    assert (X2 : ext E K n0 N0 G s G s2) by (apply ext_same; auto).
    assert (A2 : Forall (gd G (nextc s2)) acc) by (rewrite N2; auto).
    destruct (kept_relink _ _ _ R1) as [K1 [U1 T1]]. destruct (kept_relink _ _ _ R2) as [K2 [U2 T2]].
    assert (K02 : kept s s2) by (eapply kept_trans; [|exact K2]; exact K1).
    assert (U02 : unproc s2 = unproc s) by (rewrite U2, U1; reflexivity). assert (T02 : tmp s2 = rest) by (rewrite T2, T1; reflexivity).
    assert (P1 : TP s -> TP s1) by (intros TPs; apply (relink_TP _ _ _ R1); destruct TPs; constructor; auto).
    assert (P2 : TP s -> TP s2) by (intros TPs; apply (relink_TP _ _ _ R2); auto).
    assert (B02 : TP s -> trc h2 -> trc h) by (intros TPs Th; apply B1; [destruct TPs; constructor; auto|]; exact (proj1 (B2 (P1 TPs)) Th)).
    assert (TX : tmp s2 = rest ++ []) by (rewrite app_nil_r; auto).
    destruct (clause_is_trivial _ _ _) as [[|]|] eqn:TV; [| |discriminate].
    { eapply REC; [exact X2|exact A2|exact D2|exact K02|exact U02|exact TX|exact H|]. intros TPs _ TA _. split; auto. apply B02; auto. apply (trivial_back E K M HM _ HNum). exact TV. }
    destruct (lits h2) as [|e0 l0] eqn:LQ; [discriminate|]. rewrite <- LQ in H.
    match type of H with match ?g with _ => _ end = _ => destruct g as [[l3 b3]|] eqn:FS end; [|discriminate].
    assert (G2' : cgood E G (nextc s2) (lits h2)) by (rewrite N2; exact G2).
    assert (G3 : cgood E G (nextc s2) l3).
    { destruct (subsumption_aggr K); [eapply subsumption_good; [exact G2'|exact FS]|]. injection FS as <- _. exact G2'. }
    assert (B3 : TP s -> (tr l3 -> trc h) /\ (b3 = true -> trc h)).
    { intros TPs. destruct (subsumption_aggr K); [|injection FS as <- <-; split; [intros T3; apply B02; auto|discriminate]].
      destruct (subsumption_back _ _ _ _ _ _ I2 G2' (P2 TPs) FS) as [A B]. split; intros Z; apply B02; auto. }
    destruct b3; [eapply REC; [exact X2|exact A2|exact D2|exact K02|exact U02|exact TX|exact H|]; intros TPs _ TA _; split; auto; apply (B3 TPs); reflexivity|].
    match type of H with match ?g with _ => _ end = _ => destruct g as [[l4 b4]|] eqn:ER end; [|discriminate].
    assert (G4 : cgood E G (nextc s2) l4).
    { destruct (er_aggr K && er_varlit K); [|injection ER as <- _; auto]. eapply er_normalize_good; [exact HE| |exact G3|exact ER]. apply (inv_next _ _ _ _ H0 _ _ I2). }
    assert (B4 : tr l4 -> tr l3).
    { destruct (er_aggr K && er_varlit K); [|injection ER as <- _; auto]. eapply (er_normalize_back E K n HE M HM (nextc s2)); [|exact (proj1 G3)|exact ER]. apply (inv_next _ _ _ _ H0 _ _ I2). }
    destruct b4.
    + eapply (REC G (set_tmp s2 (tmp s2 ++ [with_lits h2 l4 (limited h2)])) acc [with_lits h2 l4 (limited h2)]); [|exact A2|apply known_tmp; exact D2|exact K02|exact U02|cbn [set_tmp tmp]; rewrite T02; reflexivity|exact H|].
      * apply ext_same; auto. apply inv_tmp; auto. apply Forall_app. split; [apply (s_t _ _ _ _ (proj2 I2))|]. constructor; auto.
      * intros TPs _ TA TX'. split; auto. apply (proj1 (B3 TPs)). apply B4. exact (Forall_inv TX').
    + match type of H with match ?g with _ => _ end = _ => destruct g as [[[s3 cs]|]|] eqn:CS end; [| |discriminate].
      * destruct (split_aggr K); [|discriminate]. destruct (split_ext E K n0 N0 HE HK H0 HOK HB P _ _ _ _ _ I2 G3 CS) as [G' [X3 C3]]. destruct (split_keeps _ _ _ _ _ I2 G3 D2 CS) as [K3 [U3 [T3 [D3 B5]]]].
        assert (X4 : ext E K n0 N0 G' s3 G' (set_tmp s3 (tmp s3 ++ cs))).
        { apply ext_same; auto. apply inv_tmp; [apply X3|]. apply Forall_app. split; auto. apply (s_t _ _ _ _ (proj2 (proj1 X3))). }
        assert (X5 : ext E K n0 N0 G s2 G' (set_tmp s3 (tmp s3 ++ cs))) by (eapply ext_trans; eauto).
        eapply (REC G' (set_tmp s3 (tmp s3 ++ cs)) acc cs); [exact (ext_trans E K n0 N0 H0 _ _ _ _ _ _ X2 X5)|eapply ext_gds; [exact X5|exact A2]|apply known_tmp; exact D3|exact (kept_trans _ _ _ K02 K3)|cbn [set_tmp unproc]; rewrite U3; exact U02|cbn [set_tmp tmp]; rewrite T3, T02; reflexivity|exact H|].
        intros TPs DT TA TC. split; auto. apply (proj1 (B3 TPs)). apply B5; auto. exact (kept_defs _ _ K3 DT).
      * eapply REC; [exact X2| |exact D2|exact K02|exact U02|exact TX|exact H|].
        -- constructor; auto. unfold SaturateProofs.gd. cbn [with_lits lits]. destruct (choose_lits P s2 [] 0); [apply select_good; auto|apply unselect_good; auto].
        -- intros TPs _ TA _. inversion TA as [|? ? TA1 TA2]; subst. split; auto. apply (proj1 (B3 TPs)). cbn [with_lits lits] in TA1. destruct (choose_lits P s2 [] 0); [eapply select_back; exact TA1|eapply unselect_back; exact TA1].
Qed.

Definition rep_back (s s' : state) (c : cl) (r : option cl + cl) : Prop :=
  match r with
  | inl (Some _) => True
  | inl None => kept s s' /\ known s' /\ (defs_true s' -> TR s' -> TR s /\ trc c)
  | inr c' => s' = s /\ c' = c
  end.
Lemma replacing_back G s c s' r : inv G s -> gd G (nextc s) c -> known s -> replacing E K P n s c = Some (s', r) -> rep_back s s' c r.
Proof.
  intros HI HC HD' H. unfold replacing in H. match type of H with match ?g with _ => _ end = _ => destruct g as [[d b]|] eqn:ER end; [|discriminate].
  pose proof (inv_next _ _ _ _ H0 _ _ HI) as HN.
  assert (GD : cgood E G (nextc s) d).
  { destruct (er_varlit K); [|injection ER as <- _; auto]. eapply er_normalize_good; [exact HE| |exact HC|exact ER]. auto. }
  assert (BD : tr d -> trc c).
  { destruct (er_varlit K); [|injection ER as <- _; auto]. eapply (er_normalize_back E K n HE M HM (nextc s)); [exact HN|exact (proj1 HC)|exact ER]. }
  assert (T : forall G1 s1 cs s2, inv G1 s1 -> Forall (gd G1 (nextc s1)) cs -> known s1 -> insert_new E K P n n (set_tmp s1 (tmp s1 ++ cs)) [] = Some (s2, None) ->
     kept s1 s2 /\ known s2 /\ (defs_true s2 -> TR s2 -> TR s1 /\ Forall trc cs)).
  { intros G1 s1 cs s2 I1 C1 D1 Q. assert (I2 : inv G1 (set_tmp s1 (tmp s1 ++ cs))) by (apply inv_tmp; auto; apply Forall_app; split; auto; apply (s_t _ _ _ _ (proj2 I1))).
    destruct (insert_new_back _ _ _ _ _ I2 (Forall_nil _) (known_tmp _ _ D1) Q) as [A [B C]]. split; [exact A|]. split; auto. intros DT TS. destruct (C DT TS) as [[TP1 TU1 TT1] _].
    cbn [set_tmp tmp unproc] in *. apply Forall_app in TT1. destruct TT1 as [X Y]. split; auto. constructor; auto. destruct TP1; constructor; auto. }
  destruct b.
  - match type of H with match ?g with _ => _ end = _ => destruct g as [[s2 [e|]]|] eqn:IN end; [| |discriminate]; injection H as <- <-; cbn [rep_back]; auto.
    destruct (T G s [with_lits c d (limited c)] s2 HI ltac:(constructor; auto) HD' IN) as [A [B C]]. split; auto. split; auto. intros DT TS. destruct (C DT TS) as [X Y]. split; auto. apply BD. exact (Forall_inv Y).
  - match type of H with match ?g with _ => _ end = _ => destruct g as [[[s1 cs]|]|] eqn:CS end; [| |discriminate].
    + match type of H with match ?g with _ => _ end = _ => destruct g as [[s2 [e|]]|] eqn:IN end; [| |discriminate]; injection H as <- <-; cbn [rep_back]; auto.
      destruct (split_ext E K n0 N0 HE HK H0 HOK HB P _ _ _ _ _ HI HC CS) as [G1 [X1 C1]]. destruct (split_keeps _ _ _ _ _ HI HC HD' CS) as [K1 [U1 [T1 [D1 B1]]]].
      destruct (T G1 s1 cs s2 (proj1 X1) C1 D1 IN) as [A [B C]]. split; [eapply kept_trans; eauto|]. split; auto. intros DT TS. destruct (C DT TS) as [[X1' X2 X3] Y].
      pose proof (kept_defs _ _ A DT) as DT1. split; [|apply B1; auto; eapply kept_defs; eauto]. constructor; [eapply kept_TP; eauto|rewrite <- U1; auto|rewrite <- T1; auto].
    + injection H as <- <-. cbn [rep_back]. auto.
Qed.

(** *** backward simplification *)
Lemma back_rewrite_known G s c z : inv G s -> gd G (nextc s) c -> known s -> (is_demod (lits c) = true -> follows E D (lits c)) -> known (back_rewrite E K P s c z).
Proof.
  intros HI HC HD' HF. unfold back_rewrite. destruct (lits c) as [|e [|? ?]] eqn:Q; auto. destruct (is_demod [e]) eqn:DM; auto. cbv zeta. pose proof (proj2 HI) as HS.
  set (W := fold_left _ _ _). assert (LW : links_ok E (nextc s) D W).
  { unfold W. clear W. assert (TG : Forall (tgood E (nextc s)) (pick (bw_terms P s) (indexed_terms s))) by (apply pick_forall; apply Forall_forall; intros t; eapply indexed_good; eauto).
    revert TG. generalize (pick (bw_terms P s) (indexed_terms s)). intros ts. pose proof (n_l _ HD') as L0. revert L0. generalize (links s). induction ts as [|t ts IH]; intros W L0 TG; cbn [fold_left]; auto.
    inversion TG as [|? ? Gt Gts]; subst. apply IH; auto.
    assert (DG : forall d, In d (dems_of e z) -> dgood E (nextc s) D d).
    { intros d Hd. refine (dem_lits E D (nextc s) c e z d _ Q Hd). split; [|rewrite Q; exact DM]. split; [exact (proj1 HC)|rewrite Q; auto]. }
    revert DG. generalize (dems_of e z). intros ds. clear IH. revert W L0. induction ds as [|d ds IHd]; intros W L0 DG; cbn [fold_left]; auto.
    apply IHd; [|intros d' Hd; apply DG; right; auto]. apply backward_links; auto; [apply (min_good _ _ _ HK H0), (s_next _ _ _ _ HS)|]. apply DG. left; auto. }
  destruct HD' as [A B C F]. constructor; cbn [set_tmp set_links set_proc rules eqns acs links nextc]; auto using forall_filter.
Qed.
Lemma filter_parts (f : cl -> bool) l : Forall trc (filter (fun c => negb (f c)) l) -> Forall trc (filter f l) -> Forall trc l.
Proof.
  rewrite !Forall_forall. intros A B c Hc. destruct (f c) eqn:Q; [apply B|apply A]; apply filter_In; rewrite Q; auto.
Qed.
Lemma back_rewrite_back s c z : TR (back_rewrite E K P s c z) -> TR s.
Proof.
  unfold back_rewrite. destruct (lits c) as [|e [|? ?]]; auto. destruct (is_demod [e]); auto. cbv zeta. intros [[A B C F] TU TT]. cbn [set_tmp set_links set_proc rules eqns negs nons unproc tmp] in *.
  rewrite !filter_app in TT. repeat (apply Forall_app in TT; destruct TT as [? TT]). constructor; auto. constructor; eapply filter_parts; eauto.
Qed.
Lemma remove_subsumed_back l set r : clause_ok E l -> Forall (fun c => clause_ok E (lits c)) set -> remove_subsumed E n l set = Some r -> tr l -> Forall trc r -> Forall trc set.
Proof.
  intros OL. revert r. induction set as [|d set IH]; intros r OS H TL TRr; cbn [remove_subsumed] in H; [constructor|]. inversion OS; subst.
  destruct (clause_subsumes E n l (lits d)) as [b| |] eqn:CS; try discriminate. destruct (remove_subsumed E n l set) as [r'|]; [|discriminate]. injection H as <-. destruct b.
  - constructor; [|eapply IH; eauto]. apply (clause_subsumes_true E n M l (lits d)); auto.
  - inversion TRr; subst. constructor; auto. eapply IH; eauto.
Qed.
Lemma gd_oks G N l : Forall (gd G N) l -> Forall (fun c => clause_ok E (lits c)) l.
Proof. intros H. eapply Forall_impl; [|exact H]. intros c. apply cgood_ok. Qed.
Lemma remove_subsumed_keeps (Q : cl -> Prop) l set r : Forall Q set -> remove_subsumed E n l set = Some r -> Forall Q r.
Proof. apply (remove_subsumed_good E n). Qed.
Lemma back_subsume_back G s l s' : inv G s -> clause_ok E l -> back_subsume E n s l = Some s' -> (known s -> known s') /\ (tr l -> TR s' -> TR s).
Proof.
  intros HI OL H. unfold back_subsume in H. cbv zeta in H. pose proof (proj2 HI) as HS.
  repeat match type of H with match ?g with _ => _ end = _ => let Q := fresh "Q" in destruct g eqn:Q; [|discriminate] end. injection H as <-. split.
  - intros [A B C F]. constructor; cbn [set_proc rules eqns acs links nextc]; auto.
    + destruct (_ && negb (is_rule l)) in Q; [eapply remove_subsumed_keeps; [|exact Q]; auto|injection Q as <-; auto].
    + destruct (_ && negb (is_rule l)) in Q0; [eapply remove_subsumed_keeps; [|exact Q0]; auto|injection Q0 as <-; auto].
  - intros TL [[A B C F] TU TT]. cbn [set_proc rules eqns negs nons unproc tmp] in *. constructor; auto. destruct HS. constructor.
    + destruct (_ && negb (is_rule l)) in Q; [|injection Q as <-; auto]. eapply remove_subsumed_back; eauto using gd_oks, gdd_gd.
    + destruct (_ && negb (is_rule l)) in Q0; [|injection Q0 as <-; auto]. eapply remove_subsumed_back; eauto using gd_oks, gdd_gd.
    + destruct (_ && _) in Q1; [|injection Q1 as <-; auto]. eapply remove_subsumed_back; eauto using gd_oks.
    + eapply remove_subsumed_back; eauto using gd_oks.
Qed.
Lemma back_unit_back s l : (known s -> known (back_unit_simplify E n s l)) /\ (TR (back_unit_simplify E n s l) -> TR s).
Proof.
  unfold back_unit_simplify. destruct l as [|e [|? ?]]; auto. destruct (is_rule [e]); auto. cbv zeta. destruct (pos e); split.
  - intros [A B C F]. constructor; auto.
  - intros [[A B C F] TU TT]. cbn [set_tmp set_proc rules eqns negs nons unproc tmp] in *. apply Forall_app in TT; destruct TT as [T1 TT]. apply Forall_app in TT; destruct TT as [T2 T3].
    constructor; auto. constructor; auto; [exact (filter_parts _ _ C T3)|exact (filter_parts _ _ F T2)].
  - intros [A B C F]. constructor; cbn [set_tmp set_proc rules eqns acs links nextc]; auto using forall_filter.
  - intros [[A B C F] TU TT]. cbn [set_tmp set_proc rules eqns negs nons unproc tmp] in *. apply Forall_app in TT; destruct TT as [T1 TT]. apply Forall_app in TT; destruct TT as [T2 TT]. apply Forall_app in TT; destruct TT as [T3 T4].
    constructor; auto. constructor; auto; [exact (filter_parts _ _ A T3)|exact (filter_parts _ _ B T4)|exact (filter_parts _ _ F T2)].
Qed.
Lemma back_context_back s l : (known s -> known (back_context_sr E K n s l)) /\ (TR (back_context_sr E K n s l) -> TR s).
Proof.
  unfold back_context_sr. destruct (bwd_csr K); auto. cbv zeta. split.
  - intros [A B C F]. constructor; auto.
  - intros [[A B C F] TU TT]. cbn [set_tmp set_proc rules eqns negs nons unproc tmp] in *. apply Forall_app in TT; destruct TT as [T1 T2]. constructor; auto. constructor; auto. exact (filter_parts _ _ F T2).
Qed.
Lemma insert_proc_back s c z : (known s -> (is_demod (lits c) = true -> follows E D (lits c)) -> known (insert_proc s c z)) /\ (TR (insert_proc s c z) -> TR s /\ trc c).
Proof.
  unfold insert_proc. destruct (is_demod (lits c)); [destruct (is_rule (lits c))|destruct (Nat.eqb _ _)]; split;
    try (intros [A B C F] HF; constructor; cbn [set_dates set_proc rules eqns acs links nextc]; auto; fail);
    intros [[A B C F] TU TT]; cbn [set_dates set_proc rules eqns negs nons unproc tmp] in *;
    (split; [constructor; auto; constructor; auto; eapply Forall_inv_tail; eauto|]); match goal with H : Forall _ (_ :: _) |- _ => exact (Forall_inv H) end.
Qed.
Lemma generate_back s c copy s' : generate_new E K P n s c copy = Some s' -> (known s -> known s') /\ (TR s' -> TR s) /\ kept s s'.
Proof.
  intros H. unfold generate_new in H.
  repeat match type of H with match ?g with _ => _ end = _ => let Q := fresh "Q" in destruct g eqn:Q; [|discriminate] end. injection H as <-. split; [intros HK'; apply known_tmp; auto|]. split.
  - intros [[A B C F] TU TT]. cbn [set_tmp rules eqns negs nons unproc tmp] in *. apply Forall_app in TT. constructor; [constructor; auto|auto|apply TT].
  - exact (kept_tmp s s _ (kept_refl s)).
Qed.
Lemma pick_back s : keeping P -> Forall trc (pick (tmp_order P s) (tmp s)) -> Forall trc (tmp s).
Proof.
  intros KP H. rewrite Forall_forall in *. intros c Hc. apply H. destruct (In_nth_error _ _ Hc) as [i Hi]. unfold pick. apply in_flat_map. exists i. split; [|rewrite Hi; left; auto].
  apply (k_tmp _ KP). apply nth_error_Some. congruence.
Qed.

(** *** what stays the same, without knowing the facts *)
Lemma split_kept s l s' cs : controlled_split E K P s l = Some (Some (s', cs)) -> kept s s'.
Proof.
  intros H. unfold controlled_split in H. destruct (split_wanted K l); [|discriminate].
  destruct (clause_split _ _ _ _ _ _ _ _ _) as [[r|]|] eqn:CS; try discriminate. injection H as <- <-.
  destruct (clause_split_inv _ _ _ _ _ _ _ _ _ _ CS) as [bs [_ [MD _]]]. apply make_defs_incl in MD. repeat split; auto.
Qed.
Lemma modify_kept cond lv G s c s' c' b : inv G s -> gd G (nextc s) c -> forward_modify E K P n n cond lv s c = Some (s', c', b) -> kept s s'.
Proof. intros HI HC H. destruct (forward_modify_good E K n n0 N0 HE HK H0 P _ _ _ _ _ _ _ _ _ HI HC H) as [R _]. eapply kept_relink; eauto. Qed.
Lemma insert_new_kept : forall k G s acc s' r, inv G s -> Forall (gd G (nextc s)) acc -> insert_new E K P n k s acc = Some (s', r) -> kept s s'.
Proof.
  induction k as [|k IH]; intros G s acc s' r HI HA H; [discriminate|]. cbn [insert_new] in H. destruct (tmp s) as [|h rest] eqn:T.
  - injection H as <- _. repeat split; auto. apply incl_refl.
  - cbv zeta in H. pose proof (s_t _ _ _ _ (proj2 HI)) as HT. rewrite T in HT. inversion HT as [|? ? Gh Gr]; subst. set (s0 := set_tmp s rest) in *.
    assert (I0 : inv G s0) by (apply inv_tmp; auto).
    assert (REC : forall G1 s1 acc1, ext E K n0 N0 G s G1 s1 -> Forall (gd G1 (nextc s1)) acc1 -> kept s s1 -> insert_new E K P n k s1 acc1 = Some (s', r) -> kept s s').
    { intros G1 s1 acc1 X A1 KE Q. eapply kept_trans; [exact KE|]. eapply IH; [apply X|exact A1|exact Q]. }
    match type of H with match ?g with _ => _ end = _ => destruct g as [[[s1 h1] b1]|] eqn:F1 end; [|discriminate].
    assert (X1 : relink E G s0 s1 /\ gd G (nextc s) h1).
    { destruct (irv h); [|injection F1 as <- <- _; split; [apply relink_refl with (n0 := n0); apply I0|]; auto].
      destruct (forward_modify_good E K n n0 N0 HE HK H0 P _ _ _ _ _ _ _ _ _ I0 Gh F1) as [A B]. split; auto. }
    destruct X1 as [R1 G1]. pose proof (relink_inv _ _ _ _ _ _ _ I0 R1) as I1. pose proof (relink_next _ _ _ _ R1) as N1. change (nextc s0) with (nextc s) in N1.
    match type of H with match ?g with _ => _ end = _ => destruct g as [[[s2 h2] b2]|] eqn:F2 end; [|discriminate].
    assert (G1' : gd G (nextc s1) (mkcl (lits h1) (cdate h1) (limited h1) false (isproc h1))) by (rewrite N1; exact G1).
    destruct (forward_modify_good E K n n0 N0 HE HK H0 P _ _ _ _ _ _ _ _ _ I1 G1' F2) as [R2 G2].
    pose proof (relink_inv _ _ _ _ _ _ _ I1 R2) as I2. pose proof (relink_next _ _ _ _ R2) as N2. rewrite N1 in *.
    assert (X2 : ext E K n0 N0 G s G s2) by (apply ext_same; auto).
    assert (A2 : Forall (gd G (nextc s2)) acc) by (rewrite N2; auto).
    destruct (kept_relink _ _ _ R1) as [K1 [U1 T1]]. destruct (kept_relink _ _ _ R2) as [K2 [U2 T2]].
    assert (K02 : kept s s2) by (eapply kept_trans; [|exact K2]; exact K1).
    destruct (clause_is_trivial _ _ _) as [[|]|] eqn:TV; [eapply REC; eauto| |discriminate].
    destruct (lits h2) as [|e0 l0] eqn:LQ; [injection H as <- _; auto|]. rewrite <- LQ in H.
    match type of H with match ?g with _ => _ end = _ => destruct g as [[l3 b3]|] eqn:FS end; [|discriminate].
    assert (G2' : cgood E G (nextc s2) (lits h2)) by (rewrite N2; exact G2).
    assert (G3 : cgood E G (nextc s2) l3).
    { destruct (subsumption_aggr K); [eapply subsumption_good; [exact G2'|exact FS]|]. injection FS as <- _. exact G2'. }
    destruct b3; [eapply REC; eauto|].
    match type of H with match ?g with _ => _ end = _ => destruct g as [[l4 b4]|] eqn:ER end; [|discriminate].
    assert (G4 : cgood E G (nextc s2) l4).
    { destruct (er_aggr K && er_varlit K); [|injection ER as <- _; auto]. eapply er_normalize_good; [exact HE| |exact G3|exact ER]. apply (inv_next _ _ _ _ H0 _ _ I2). }
    destruct b4.
    + eapply (REC G (set_tmp s2 (tmp s2 ++ [with_lits h2 l4 (limited h2)])) acc); [|exact A2|exact K02|exact H].
      apply ext_same; auto. apply inv_tmp; auto. apply Forall_app. split; [apply (s_t _ _ _ _ (proj2 I2))|]. constructor; auto.
    + match type of H with match ?g with _ => _ end = _ => destruct g as [[[s3 cs]|]|] eqn:CS end; [| |discriminate].
      * destruct (split_aggr K); [|discriminate]. destruct (split_ext E K n0 N0 HE HK H0 HOK HB P _ _ _ _ _ I2 G3 CS) as [G' [X3 C3]]. pose proof (split_kept _ _ _ _ CS) as K3.
        assert (X4 : ext E K n0 N0 G' s3 G' (set_tmp s3 (tmp s3 ++ cs))).
        { apply ext_same; auto. apply inv_tmp; [apply X3|]. apply Forall_app. split; auto. apply (s_t _ _ _ _ (proj2 (proj1 X3))). }
        assert (X5 : ext E K n0 N0 G s2 G' (set_tmp s3 (tmp s3 ++ cs))) by (eapply ext_trans; eauto).
        eapply (REC G' (set_tmp s3 (tmp s3 ++ cs)) acc); [exact (ext_trans E K n0 N0 H0 _ _ _ _ _ _ X2 X5)|eapply ext_gds; [exact X5|exact A2]|exact (kept_trans _ _ _ K02 K3)|exact H].
      * eapply REC; [exact X2| |exact K02|exact H].
        constructor; auto. unfold SaturateProofs.gd. cbn [with_lits lits]. destruct (choose_lits P s2 [] 0); [apply select_good; auto|apply unselect_good; auto].
Qed.
Lemma replacing_kept G s c s' r : inv G s -> gd G (nextc s) c -> replacing E K P n s c = Some (s', r) -> kept s s'.
Proof.
  intros HI HC H. unfold replacing in H. match type of H with match ?g with _ => _ end = _ => destruct g as [[d b]|] eqn:ER end; [|discriminate].
  pose proof (inv_next _ _ _ _ H0 _ _ HI) as HN.
  assert (GD : cgood E G (nextc s) d).
  { destruct (er_varlit K); [|injection ER as <- _; auto]. eapply er_normalize_good; [exact HE| |exact HC|exact ER]. auto. }
  destruct b.
  - match type of H with match ?g with _ => _ end = _ => destruct g as [[s2 e]|] eqn:IN end; [|discriminate]. injection H as <- _.
    apply (insert_new_kept _ G) in IN; [exact IN| |constructor]. apply inv_tmp; auto. apply Forall_app. split; [apply (s_t _ _ _ _ (proj2 HI))|constructor; auto].
  - match type of H with match ?g with _ => _ end = _ => destruct g as [[[s1 cs]|]|] eqn:CS end; [| |discriminate].
    + match type of H with match ?g with _ => _ end = _ => destruct g as [[s2 e]|] eqn:IN end; [|discriminate]. injection H as <- _.
      destruct (split_ext E K n0 N0 HE HK H0 HOK HB P _ _ _ _ _ HI HC CS) as [G1 [X1 C1]]. eapply kept_trans; [exact (split_kept _ _ _ _ CS)|].
      apply (insert_new_kept _ G1) in IN; [exact IN| |constructor]. apply inv_tmp; [apply X1|]. apply Forall_app. split; [apply (s_t _ _ _ _ (proj2 (proj1 X1)))|auto].
    + injection H as <- _. apply kept_refl.
Qed.
Lemma orphans_true s : orphans_follow E P D s -> TP s -> Forall trc (tmp s) -> Forall trc (filter (fun c => negb (orphan P s c)) (unproc s)) -> Forall trc (unproc s).
Proof.
  intros OF [A B C F] TT TU. apply Forall_forall. intros c Hc. destruct (orphan P s c) eqn:Q.
  - apply (OF c Hc Q M HM). intros d Hd. apply in_app_or in Hd. destruct Hd as [Hd|Hd]; [apply HD; auto|]. apply in_map_iff in Hd. destruct Hd as [x [<- Hx]].
    revert x Hx. apply Forall_forall. repeat (apply Forall_app; split); auto.
  - rewrite Forall_forall in TU. apply TU. apply filter_In. rewrite Q. auto.
Qed.
Lemma except_back i (u : list cl) c : nth_error u i = Some c -> Forall trc (except i u) -> trc c -> Forall trc u.
Proof.
  intros NE TE Tc. apply Forall_forall. intros d Hd. destruct (In_nth_error _ _ Hd) as [j Hj]. destruct (Nat.eq_dec j i) as [->|NJ]; [rewrite NE in Hj; injection Hj as <-; auto|].
  rewrite Forall_forall in TE. apply TE. clear TE. revert u j NE Hj NJ Hd. induction i as [|i IH]; intros [|x u] j NE Hj NJ Hd; try discriminate.
  - destruct j; [lia|]. cbn in Hj. cbn. eapply nth_error_In; eauto.
  - destruct j; cbn in Hj; cbn; [injection Hj as ->; left; auto|]. right. eapply (IH u j); eauto. eapply nth_error_In; eauto.
Qed.
Lemma normalize_length c d : normalize_vars E n c = Some d -> length d = length c.
Proof.
  intros H. unfold normalize_vars in H. destruct (norm_eqns _ _ _ _) as [[st k]|]; [|discriminate]. destruct (trail st); [injection H as <-; auto|]. eapply mapo_len; eauto.
Qed.
Lemma demod_length c : is_demod c = true -> length c = 1.
Proof.
  unfold is_demod, pos_no, neg_no. intros H. apply andb_true_iff in H. destruct H as [A B]. apply Nat.eqb_eq in A, B.
  assert (X : length c = length (filter pos c) + length (filter (fun e => negb (pos e)) c)) by (clear; induction c as [|e c IH]; auto; cbn [filter]; destruct (pos e); cbn [negb length]; lia). lia.
Qed.

Lemma process_back G s s' : inv G s -> known s -> keeping P -> orphans_follow E P D s -> process_clause E K P n s = Some (s', None) -> incl (facts E s') D ->
  known s' /\ (TR s' -> TR s).
Proof.
  intros HI HD' KP OF H FD. unfold process_clause in H. cbv zeta in H. set (u := filter _ (unproc s)) in *.
  assert (DT : defs_true s').
  { intros d p Hd. apply HD. apply FD. unfold facts. apply in_or_app. right. apply in_or_app. right. apply in_map_iff. exists (d, p). auto. }
  assert (FA : Forall (follows E D) (ac_axioms (acs s'))).
  { apply Forall_forall. intros d Hd M' HM' HT. apply HT. apply FD. unfold facts. apply in_or_app. right. apply in_or_app. auto. }
  assert (HU : Forall (gd G (nextc s)) u) by (apply forall_filter, (s_u _ _ _ _ (proj2 HI))).
  destruct (choose P s) as [i|].
  2:{ injection H as <-. split; [apply known_unproc; auto|]. intros [TPs TU TT]. cbn [set_unproc unproc tmp] in *. assert (T : TP s) by (destruct TPs; constructor; auto). constructor; auto. apply orphans_true; auto. }
  destruct (nth_error u i) as [c0|] eqn:NE; [|discriminate].
  set (s0 := set_unproc s (except i u)) in *. assert (I0 : inv G s0) by (apply inv_unproc; auto using forall_except). assert (D0 : known s0) by (apply known_unproc; auto).
  assert (G0 : gd G (nextc s0) (mkcl (lits c0) (cdate c0) (limited c0) (irv c0) true)) by (rewrite Forall_forall in HU; apply (HU c0); eapply nth_error_In; eauto).
  assert (B0 : TR s0 -> trc c0 -> TR s).
  { intros [TPs TU TT] Tc. assert (T : TP s) by (destruct TPs; constructor; auto). cbn [s0 set_unproc unproc tmp] in *. constructor; auto. apply orphans_true; auto. eapply except_back; eauto. }
  match type of H with match ?g with _ => _ end = _ => destruct g as [[s1 r1]|] eqn:FC end; [|discriminate].
  destruct (forward_contract_good E K n n0 N0 HE HK H0 P _ _ _ _ _ _ _ _ _ I0 G0 FC) as [R1 G1]. destruct (forward_contract_back _ _ _ _ _ _ _ _ _ I0 G0 D0 FC) as [D1 B1].
  pose proof (relink_inv _ _ _ _ _ _ _ I0 R1) as I1. pose proof (relink_next _ _ _ _ R1) as N1. destruct (kept_relink _ _ _ R1) as [K1 [U1 T1]].
  assert (B01 : TR s1 -> (match r1 with Some c' => trc c' | None => True end) -> TR s).
  { intros [TPs TU TT] Tc. pose proof (proj1 (relink_TP _ _ _ R1) TPs) as TP0. rewrite U1 in TU. rewrite T1 in TT. specialize (B1 TP0). apply B0; [constructor; auto|]. destruct r1 as [c1|]; auto. }
  destruct r1 as [c1|]; [|injection H as <-; split; auto]. specialize (G1 c1 eq_refl). rewrite <- N1 in G1.
  clear B1. destruct (lits c1) as [|e1 l1] eqn:LQ; [discriminate|]. rewrite <- LQ in *. clear LQ e1 l1.
  set (s1a := set_ac s1 (ac_check (ac_handling K) (acs s1) (lits c1))) in *. assert (I1a : inv G s1a) by (apply check_inv; auto).
  change (nextc s1) with (nextc s1a) in G1.
  assert (D1a : acs s' = acs s1a -> known s1a).
  { intros Q. destruct D1 as [A B C F]. constructor; auto. rewrite <- Q. exact FA. }
  assert (B1a : TR s1a -> trc c1 -> TR s) by (intros [[A B C F] TU TT] Tc; apply B01; auto; constructor; auto; constructor; auto).
  clearbody s1a. clear I1 B01 D1 R1 N1 K1 U1 T1 FC s1.
  destruct (replacing E K P n s1a c1) as [[s2 r2]|] eqn:RP; [|discriminate].
  pose proof (replacing_kept _ _ _ _ _ I1a G1 RP) as K2. destruct r2 as [e|c2].
  { injection H as <- ->. specialize (D1a (proj1 (proj2 (proj2 (proj2 (proj2 K2)))))). destruct (replacing_back _ _ _ _ _ I1a G1 D1a RP) as [_ [D2 B2]]. split; auto.
    intros TS. destruct (B2 DT TS) as [X Y]. auto. }
  destruct (replacing_good E K n n0 N0 HE HK H0 HOK HB P _ _ _ _ _ I1a G1 RP) as [G' [X2 G2]]. cbn [rep_ok] in G2. pose proof (proj1 X2) as I2.
  match type of H with context [back_rewrite E K P s2 c2 ?zz] => set (z := zz) in * end.
  destruct (back_rewrite_good E K n0 N0 HK H0 P G' s2 c2 z I2 G2) as [I3 N3]. pose proof (back_rewrite_back s2 c2 z) as B3. pose proof (fun a b => back_rewrite_known G' s2 c2 z I2 G2 a b) as D3.
  assert (A3 : acs (back_rewrite E K P s2 c2 z) = acs s2) by (unfold back_rewrite; destruct (lits c2) as [|? [|? ?]]; auto; destruct (is_demod _); auto).
  set (s3 := back_rewrite E K P s2 c2 z) in *.
  destruct (back_subsume E n s3 (lits c2)) as [s4|] eqn:BS; [|discriminate]. destruct (back_subsume_good _ _ _ _ _ _ _ _ _ I3 BS) as [I4 N4].
  assert (OC : clause_ok E (lits c2)) by (eapply cgood_ok; exact G2). destruct (back_subsume_back _ _ _ _ I3 OC BS) as [D4 B4].
  assert (A4 : acs s4 = acs s3) by (unfold back_subsume in BS; cbv zeta in BS; repeat match type of BS with match ?g with _ => _ end = _ => destruct g; [|discriminate] end; injection BS as <-; reflexivity).
  destruct (back_unit_good E K n n0 N0 G' s4 (lits c2) I4) as [I5 N5]. destruct (back_context_good E K n n0 N0 G' _ (lits c2) I5) as [I6 N6].
  destruct (back_unit_back s4 (lits c2)) as [D5 B5]. destruct (back_context_back (back_unit_simplify E n s4 (lits c2)) (lits c2)) as [D6 B6].
  assert (A6 : acs (back_context_sr E K n (back_unit_simplify E n s4 (lits c2)) (lits c2)) = acs s4).
  { unfold back_context_sr, back_unit_simplify. destruct (lits c2) as [|e [|? ?]]; destruct (bwd_csr K); auto; destruct (is_rule [e]); auto; cbv zeta; destruct (pos e); auto. }
  set (s5 := back_context_sr E K n _ _) in *.
  assert (NX : nextc s5 = nextc s2) by (rewrite N6, N5, N4, N3; reflexivity).
  assert (I7 : inv G' (set_tmp s5 (map set_irv (tmp s5)))).
  { apply inv_tmp; auto. apply Forall_map. exact (s_t _ _ _ _ (proj2 I6)). }
  destruct (normalize_vars E n (lits c2)) as [l|] eqn:NV; [|discriminate].
  assert (GL : cgood E G' (nextc s2) l) by (exact (normalize_good E n HE G' (nextc s2) (inv_next _ _ _ _ H0 _ _ I2) _ _ G2 NV)).
  match type of H with context [insert_proc ?a ?b ?c] => destruct (insert_proc_good E K n0 N0 G' a b c I7) as [I8 N8]; [unfold SaturateProofs.gd; cbn [set_tmp nextc lits]; rewrite NX; exact GL|]; destruct (insert_proc_back a b c) as [D8 B8];
    assert (A8 : acs (insert_proc a b c) = acs a /\ (length l = 1 -> In b (rules (insert_proc a b c) ++ eqns (insert_proc a b c) ++ negs (insert_proc a b c))));
    [unfold insert_proc; cbn [lits]; destruct (is_demod l); [destruct (is_rule l)|destruct (Nat.eqb (length l) 1) eqn:QL; [|split; [reflexivity|intros QX; rewrite QX in QL; discriminate]]]; (split; [reflexivity|]); intros _;
      cbn [set_dates set_proc rules eqns negs]; rewrite !in_app_iff; [left|right; left|right; right]; left; reflexivity|];
    set (s7 := insert_proc a b c) in * end.
  cbn [set_tmp nextc lits] in *. rewrite NX in N8. destruct A8 as [A8 R8].
  match type of H with match ?g with _ => _ end = _ => destruct g as [s8|] eqn:GN end; [|discriminate].
  assert (X8 : inv G' s8 /\ nextc s8 = nextc s2).
  { destruct (generate K); [|injection GN as <-; auto]. rewrite <- N8. eapply generate_good; [exact HE|exact H0|exact I8| | |exact GN]; rewrite N8; auto.
    apply copy_disjoint_good; auto; [apply (inv_next _ _ _ _ H0 _ _ I2)|apply (co_alt _ _ _ HK)]. }
  destruct X8 as [I9 N9].
  assert (X9 : (known s7 -> known s8) /\ (TR s8 -> TR s7) /\ kept s7 s8).
  { destruct (generate K); [eapply generate_back; exact GN|]. injection GN as <-. split; auto. split; auto. apply kept_refl. }
  destruct X9 as [D9 [B9 K9]].
  assert (I10 : inv G' (set_tmp s8 (pick (tmp_order P s8) (tmp s8)))) by (apply inv_tmp; auto; apply pick_forall, (s_t _ _ _ _ (proj2 I9))).
  pose proof (insert_new_kept _ _ _ _ _ _ I10 (Forall_nil _) H) as K10. assert (K810 : kept s7 s') by (eapply kept_trans; [exact K9|exact K10]).
  assert (A10 : acs s' = acs s1a).
  { destruct K810 as [_ [_ [_ [_ [A10 _]]]]]. destruct K2 as [_ [_ [_ [_ [A2 _]]]]]. rewrite A10, A8. cbn [set_tmp acs]. rewrite A6, A4, A3, A2. reflexivity. }
  specialize (D1a A10). destruct (replacing_back _ _ _ _ _ I1a G1 D1a RP) as [-> ->].
  assert (FL : length l = 1 -> follows E D l).
  { intros DM M' HM' HT. apply HT. apply FD. unfold facts. apply in_or_app. left. destruct K810 as [Q1 [Q2 [Q3 _]]]. rewrite Q1, Q2, Q3. apply in_map_iff. eexists. split; [|exact (R8 DM)]. reflexivity. }
  assert (FC : is_demod (lits c1) = true -> follows E D (lits c1)).
  { intros DM M' HM' HT. eapply (normalize_back E n HE M' HM'); [exact OC|exact NV|]. apply FL; auto. rewrite (normalize_length _ _ NV). apply demod_length. exact DM. }
  specialize (D3 D1a FC). specialize (D4 D3). specialize (D5 D4). specialize (D6 D5). specialize (D8 (known_tmp _ _ D6) (fun q => FL (demod_length _ q))). specialize (D9 D8).
  destruct (insert_new_back _ _ _ _ _ I10 (Forall_nil _) (known_tmp _ _ D9) H) as [_ [D10 B10]]. split; auto. intros TS. destruct (B10 DT TS) as [[TP10 TU10 TT10] _].
  cbn [set_tmp unproc tmp] in TU10, TT10. assert (TS8 : TR s8) by (constructor; [destruct TP10; constructor; auto|auto|apply pick_back; auto]).
  destruct (B8 (B9 TS8)) as [[TP7 TU7 TT7] TL]. assert (TC : trc c1) by (eapply (normalize_back E n HE M HM); [exact OC|exact NV|exact TL]).
  apply B1a; auto. apply B3. apply B4; auto. apply B5. apply B6. cbn [set_tmp unproc tmp] in TU7, TT7. constructor; [destruct TP7; constructor; auto|auto|]. rewrite Forall_map in TT7. exact TT7.
Qed.

Lemma contract_set_back nu lv : forall cs G s acc s', inv G s -> Forall (gd G (nextc s)) cs -> Forall (gd G (nextc s)) acc -> known s -> contract_set E K P n nu lv s cs acc = Some (s', None) ->
  kept s s' /\ tmp s' = tmp s /\ known s' /\ (TP s -> Forall trc (unproc s') -> Forall trc cs /\ Forall trc acc).
Proof.
  induction cs as [|c cs IH]; intros G s acc s' HI HC HA HD' H; cbn [contract_set] in H.
  - injection H as <-. split; [repeat split; auto; apply incl_refl|]. split; [reflexivity|]. split; [apply known_unproc; auto|]. intros _ T. split; auto. cbn in T. apply Forall_rev in T. rewrite rev_involutive in T. exact T.
  - inversion HC as [|? ? Gc Gcs]; subst. destruct (forward_contract E K P n nu false false lv s c) as [[s1 r1]|] eqn:FC; [|discriminate].
    destruct (forward_contract_good E K n n0 N0 HE HK H0 P _ _ _ _ _ _ _ _ _ HI Gc FC) as [R1 G1]. destruct (forward_contract_back _ _ _ _ _ _ _ _ _ HI Gc HD' FC) as [D1 B1].
    pose proof (relink_inv _ _ _ _ _ _ _ HI R1) as I1. pose proof (relink_next _ _ _ _ R1) as N1. destruct (kept_relink _ _ _ R1) as [K1 [U1 T1]]. rewrite <- N1 in *.
    destruct r1 as [c1|].
    + specialize (G1 c1 eq_refl). assert (H' : contract_set E K P n nu lv s1 cs (c1 :: acc) = Some (s', None)) by (destruct (lits c1); [discriminate|exact H]).
      destruct (IH G s1 (c1 :: acc) s' I1 Gcs ltac:(constructor; auto) D1 H') as [A [B [C F]]]. split; [eapply kept_trans; eauto|]. split; [congruence|]. split; auto. intros TPs TU.
      destruct (F (proj2 (relink_TP _ _ _ R1) TPs) TU) as [X Y]. inversion Y; subst. split; auto.
    + destruct (IH G s1 acc s' I1 Gcs HA D1 H) as [A [B [C F]]]. split; [eapply kept_trans; eauto|]. split; [congruence|]. split; auto. intros TPs TU.
      destruct (F (proj2 (relink_TP _ _ _ R1) TPs) TU) as [X Y]. split; auto.
Qed.
Lemma cleanup_back G s s' : inv G s -> known s -> keeping P -> orphans_follow E P D s -> cleanup E K P n s = Some (s', None) -> known s' /\ (TR s' -> TR s).
Proof.
  intros HI HD' KP OF H. unfold cleanup in H. cbv zeta in H. match type of H with context [set_unproc s ?u] => set (s1 := set_unproc s u) in * end.
  assert (I1 : inv G s1) by (apply inv_unproc; auto; apply forall_filter, (s_u _ _ _ _ (proj2 HI))). assert (D1 : known s1) by (apply known_unproc; auto).
  assert (B1 : TR s1 -> TR s).
  { intros [TPs TU TT]. assert (T : TP s) by (destruct TPs; constructor; auto). constructor; auto. apply orphans_true; auto. }
  match type of H with match ?g with _ => _ end = _ => destruct g as [[s2 [e|]]|] eqn:CS end; [discriminate| |discriminate].
  assert (X2 : known s2 /\ (TR s2 -> TR s1)).
  { destruct (contract_all P s1); [|injection CS as <-; auto].
    destruct (contract_set_back _ _ _ _ _ _ _ I1 (s_u _ _ _ _ (proj2 I1)) (Forall_nil _) D1 CS) as [A [B [C F]]]. split; auto. intros [TPs TU TT]. pose proof (kept_TP _ _ A TPs) as TP1.
    destruct (F TP1 TU) as [X _]. constructor; auto. rewrite <- B. auto. }
  destruct X2 as [D2 B2]. injection H as <-. split; [apply known_unproc; auto|]. intros [TPs TU TT]. apply B1, B2. cbn [set_unproc unproc tmp] in *. constructor; [destruct TPs; constructor; auto| |auto].
  rewrite Forall_forall in *. intros c Hc. apply TU. apply filter_In. rewrite (k_bad _ KP). auto.
Qed.
Lemma filter_unproc_back : forall desc G s s', inv G s -> known s -> filter_unproc E K P n desc s = Some (s', None) -> known s' /\ (TR s' -> TR s).
Proof.
  induction desc as [|[nu lv] desc IH]; intros G s s' HI HD' H; cbn [filter_unproc] in H; [injection H as <-; auto|].
  destruct (contract_set E K P n nu lv s (unproc s) []) as [[s1 [e|]]|] eqn:CS; [discriminate| |discriminate].
  destruct (contract_set_good E K n n0 N0 HE HK H0 P _ _ _ _ _ _ _ _ HI (s_u _ _ _ _ (proj2 HI)) (Forall_nil _) CS) as [X1 _].
  destruct (contract_set_back _ _ _ _ _ _ _ HI (s_u _ _ _ _ (proj2 HI)) (Forall_nil _) HD' CS) as [A [B [C F]]].
  destruct (IH _ _ _ (proj1 X1) C H) as [D2 B2]. split; auto. intros TS. destruct (B2 TS) as [TPs TU TT]. pose proof (kept_TP _ _ A TPs) as TP1. destruct (F TP1 TU) as [X _]. constructor; auto. rewrite <- B. auto.
Qed.
End Model.
End Keep.
