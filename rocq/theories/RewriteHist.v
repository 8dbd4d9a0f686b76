(** * Histories of rewriting: what holds of links and dates at any time (property C14). *)
From Verif Require Import Terms Unify UnifyProofs Semantics Clauses ClausesProofs MatchProofs Subsume SubsumeProofs Rewrite RewriteProofs.
Local Open Scope nat_scope.

(** ** Specification: operations on the shared terms and the demodulator sets *)

(** The positions inserted for a unit equation: ClauseSetPDTIndexedInsert, CLAUSES/ccl_clausesets.c:538-570 (left side always, right side if
    the equation is not oriented). *)
Definition dems_of (e : eqn) (z : Z) : list dem :=
  {| dlit := e; dleft := true; ddate := z |} :: if ori e then [] else [{| dlit := e; dleft := false; ddate := z |}].

Section Hist.
  Variable E : env.
  Variable gtb : term -> term -> bool.
  Variable strong : bool.
  Variable minterm : sort -> term.
  Variable sg : sym -> bool.
  Variable gt : term -> term -> Prop.
  Notation SS := (srt E).
  Notation ok := (good SS sg).

  (** A search procedure that delivers demodulators of the two sets, and all those that match and are not older than the date. *)
  Definition enumerates (R Q : list dem) (enum : nat -> term -> Z -> list dem) : Prop :=
    (forall i t z d, In d (enum i t z) -> In d (match i with 0 => R | _ => Q end)) /\
    (forall i t z d s, ok t -> In d (match i with 0 => R | _ => Q end) -> wfsubst SS s -> app s (dkey d) = t -> (z < ddate d)%Z -> In d (enum i t z)).

  Definition set_date (z0 z1 : Z) (i : nat) : Z := match i with 0 => z0 | _ => z1 end.

  (** [reach W R Q z0 z1 K]: W is a possible state of the rewrite links and dates when R and Q are the rules and the unoriented
      equations (dates z0, z1), and K are all equations that were ever used.
      New demodulators get the maximal date of the two sets plus one: CONTROL/cco_proofproc.c:172-218, 1643-1680. *)
  Inductive reach : store -> list dem -> list dem -> Z -> Z -> list dem -> Prop :=
  | r_init : reach no_links [] [] 0 0 []
  | r_rule : forall W R Q z0 z1 K e, reach W R Q z0 z1 K ->
      (forall d, In d (dems_of e (Z.max z0 z1 + 1)) -> dem_ok E sg gt d) -> ori e = true ->
      reach W (dems_of e (Z.max z0 z1 + 1) ++ R) Q (Z.max z0 z1 + 1) z1 (dems_of e (Z.max z0 z1 + 1) ++ K)
  | r_eqn : forall W R Q z0 z1 K e, reach W R Q z0 z1 K ->
      (forall d, In d (dems_of e (Z.max z0 z1 + 1)) -> dem_ok E sg gt d) -> ori e = false ->
      reach W R (dems_of e (Z.max z0 z1 + 1) ++ Q) z0 (Z.max z0 z1 + 1) (dems_of e (Z.max z0 z1 + 1) ++ K)
  | r_remove : forall W R Q z0 z1 K R' Q', reach W R Q z0 z1 K -> incl R' R -> incl Q' Q -> reach W R' Q' z0 z1 K
  | r_norm : forall W R Q z0 z1 K enum full n t r W' t', reach W R Q z0 z1 K -> enumerates R Q enum -> ok t ->
      normal_form E gtb strong minterm enum (set_date z0 z1) full n W t r = Some (W', t') -> reach W' R Q z0 z1 K
  | r_back : forall W R Q z0 z1 K d t, reach W R Q z0 z1 K -> dem_ok E sg gt d -> ok t ->
      reach (backward_link E gtb strong minterm W d t) R Q z0 z1 (d :: K).

  (** ** Proofs *)
  Hypothesis FO : fo_sorts SS (pp E).
  Hypothesis O : simp_order SS sg gt.
  Hypothesis HG : forall s t, ok s -> ok t -> gtb s t = true -> gt s t.
  Hypothesis HMin : strong = true -> forall x, ok (minterm (vsort SS x)) /\ tsort SS (minterm (vsort SS x)) = vsort SS x.

  Definition bounded (z : Z) (W : store) : Prop := forall t, match W t with Dates a b => (a <= z /\ b <= z)%Z | Link _ _ _ => True end.

  Lemma bounded_set z W t c : bounded z W -> match c with Dates a b => (a <= z /\ b <= z)%Z | Link _ _ _ => True end -> bounded z (sset W t c).
  Proof. intros B H u. unfold sset. destruct (term_eqb t u); auto. apply B. Qed.

  Section Run.
    Variables (enum : nat -> term -> Z -> list dem) (sdate : nat -> Z) (full : bool) (z : Z).
    Hypothesis HZ : (demod_date sdate full <= z)%Z.

    Lemma rewrite_list_bounded W t r : bounded z W -> bounded z (fst (rewrite_list E gtb strong minterm enum sdate full W t r)).
    Proof.
      intros B. unfold rewrite_list.
      assert (X : forall W i, bounded z W -> bounded z (fst (rewrite_set E gtb strong minterm enum full W i t r))).
      { intros W0 i B0. unfold rewrite_set. destruct (find_demod _ _ _ _ _ _ _ _); auto. destruct (term_eqb _ _); auto.
        apply bounded_set; auto. }
      assert (Y : bounded z (fst (if (nf_date (W t) full <? sdate 0)%Z then rewrite_set E gtb strong minterm enum full W 0 t r else (W, t)))).
      { destruct (_ <? _)%Z; auto. }
      destruct (if (nf_date (W t) full <? sdate 0)%Z then _ else _) as [W1 t1]. simpl in Y.
      destruct (negb _ || negb _); auto. destruct (_ <? _)%Z; auto.
    Qed.

    Lemma finish_bounded W t r : bounded z W -> bounded z (finish_nf sdate full W t r).
    Proof.
      intros B. unfold finish_nf. pose proof (B t) as Bt. destruct (W t) as [|a b]; auto. destruct r; auto.
      apply bounded_set; auto. destruct full; split; auto; lia.
    Qed.

    Lemma run_bounded : forall n W j W' t', run E gtb strong minterm enum sdate full n W j = Some (W', t') -> bounded z W -> bounded z W'.
    Proof.
      induction n as [|n IH]; intros W j W' t' H B; [discriminate|]. cbn [run] in H. destruct j as [t r|t r].
      - destruct (follow n W t r) as [t1|]; [|discriminate]. destruct (_ && _); [injection H as <- <-; auto|].
        destruct t1 as [x|f a]; [injection H as <- <-; auto|]. eapply IH; eauto.
      - destruct t as [x|f a]; [injection H as <- <-; apply finish_bounded; auto|].
        destruct (norm_args _ W a) as [[W1 args']|] eqn:HA; [|discriminate].
        assert (B1 : bounded z W1).
        { clear H. revert W W1 args' HA B. induction a as [|b a IHa]; intros W W1 args' HA B; cbn [norm_args] in HA.
          - injection HA as <- <-; auto.
          - destruct (run _ _ _ _ _ _ _ n W _) as [[W2 b']|] eqn:HR; [|discriminate].
            match type of HA with match ?X with _ => _ end = _ => destruct X as [[W3 r']|] eqn:HX; [|discriminate] end.
            injection HA as <- <-. apply (IHa W2 W3 r'); auto. eapply IH; eauto. }
        set (m := negb (term_eqb (Fun f args') (Fun f a))) in *.
        set (W2 := if m then add_link W1 (Fun f a) (Fun f args') false true else W1) in *.
        assert (B2 : bounded z W2) by (unfold W2; destruct m; auto; apply bounded_set; auto).
        set (W3 := if top_rewritten (W2 (Fun f args')) then W2 else fst (rewrite_list E gtb strong minterm enum sdate full W2 (Fun f args') (r && negb m))) in *.
        assert (B3 : bounded z W3) by (unfold W3; destruct (top_rewritten _); auto; apply rewrite_list_bounded; auto).
        destruct (follow n W3 _ _) as [t2|]; [|discriminate]. destruct (m || _); [eapply IH; eauto|].
        injection H as <- <-. apply finish_bounded; auto.
    Qed.
  End Run.

  Record wstate (W : store) (R Q : list dem) (z0 z1 : Z) (K : list dem) : Prop := {
    ws_K : forall d, In d K -> dem_ok E sg gt d;
    ws_R : incl R K;
    ws_Q : incl Q K;
    ws_RO : forall d, In d R -> ori (dlit d) = true /\ (0 < ddate d <= z0)%Z;
    ws_QO : forall d, In d Q -> ori (dlit d) = false /\ (0 < ddate d <= z1)%Z;
    ws_inv : inv E gtb sg gt R Q K W;
    ws_b : bounded (Z.max z0 z1) W;
    ws_z : (0 <= z0 /\ 0 <= z1)%Z }.

  Lemma equal_mod_incl K K' t u : incl K K' -> equal_mod E K t u -> equal_mod E K' t u.
  Proof. intros HI H M HM HT. apply H; auto. Qed.

  Lemma link_more K K' t u : incl K K' -> link_ok E sg gt K t u -> link_ok E sg gt K' t u.
  Proof.
    intros HI [H1 [H2 [H3 H4]]]. split; auto. split; auto. split; auto. eapply equal_mod_incl; eauto.
  Qed.
  Lemma cell_more R Q K K' t c : incl K K' -> cell_ok E gtb sg gt R Q K t c -> cell_ok E gtb sg gt R Q K' t c.
  Proof.
    intros HI. destruct c; simpl; auto. intros [H1 [H2 [H3 H4]]]. split; auto. split; auto. split; auto. eapply equal_mod_incl; eauto.
  Qed.

  Lemma dems_of_facts e z d : In d (dems_of e z) -> ori (dlit d) = ori e /\ ddate d = z /\ dlit d = e.
  Proof. unfold dems_of. destruct (ori e) eqn:HO; simpl; intros H; [destruct H as [<-|[]]|destruct H as [<-|[<-|[]]]]; auto. Qed.

  Lemma reach_ok W R Q z0 z1 K : reach W R Q z0 z1 K -> wstate W R Q z0 z1 K.
  Proof.
    induction 1 as [|W R Q z0 z1 K e _ IH HD HO|W R Q z0 z1 K e _ IH HD HO|W R Q z0 z1 K R' Q' _ IH H1 H2
                   |W R Q z0 z1 K enum full n t r W' t' _ IH HE Gt HN|W R Q z0 z1 K d t _ IH HD Gt].
    - split; [intros d []|intros d []|intros d []|intros d []|intros d []| | |lia].
      + intros t G. simpl. split; intros d u [].
      + intros t. simpl. lia.
    - destruct IH. split.
      + intros d Hd. apply in_app_or in Hd. destruct Hd; auto.
      + intros d Hd. apply in_app_or in Hd. apply in_or_app. destruct Hd; auto.
      + intros d Hd. apply in_or_app. right. apply ws_Q0. auto.
      + intros d Hd. apply in_app_or in Hd. destruct Hd as [Hd|Hd].
        * apply dems_of_facts in Hd. destruct Hd as [Q1 [Q2 Q3]]. split; [congruence|lia].
        * apply ws_RO0 in Hd. split; [tauto|lia].
      + auto.
      + intros t G. specialize (ws_inv0 t G). specialize (ws_b0 t). 
        destruct (W t) as [u tp rr|a b].
        * apply (link_more K); auto. intros d Hd. apply in_or_app; auto.
        * destruct ws_inv0 as [I1 I2]. split.
          -- intros d u Hd HDt Hu. apply in_app_or in Hd. destruct Hd as [Hd|Hd]; [|apply I1; auto].
             apply dems_of_facts in Hd. lia.
          -- intros d u Hd HDt Hu. rewrite <- app_assoc in Hd. apply in_app_or in Hd. destruct Hd as [Hd|Hd]; [|apply I2; auto].
             apply dems_of_facts in Hd. lia.
      + intros t. specialize (ws_b0 t). destruct (W t); auto. lia.
      + lia.
    - destruct IH. split.
      + intros d Hd. apply in_app_or in Hd. destruct Hd; auto.
      + intros d Hd. apply in_or_app. right. apply ws_R0. auto.
      + intros d Hd. apply in_app_or in Hd. apply in_or_app. destruct Hd; auto.
      + auto.
      + intros d Hd. apply in_app_or in Hd. destruct Hd as [Hd|Hd].
        * apply dems_of_facts in Hd. destruct Hd as [Q1 [Q2 Q3]]. split; [congruence|lia].
        * apply ws_QO0 in Hd. split; [tauto|lia].
      + intros t G. specialize (ws_inv0 t G). specialize (ws_b0 t). 
        destruct (W t) as [u tp rr|a b].
        * apply (link_more K); auto. intros d Hd. apply in_or_app; auto.
        * destruct ws_inv0 as [I1 I2]. split; [exact I1|].
          intros d u Hd HDt Hu. apply in_app_or in Hd. destruct Hd as [Hd|Hd]; [apply I2; auto; apply in_or_app; auto|].
          apply in_app_or in Hd. destruct Hd as [Hd|Hd]; [|apply I2; auto; apply in_or_app; auto].
          apply dems_of_facts in Hd. lia.
      + intros t. specialize (ws_b0 t). destruct (W t); auto. lia.
      + lia.
    - destruct IH. split; auto.
      + intros d Hd. auto.
      + intros d Hd. auto.
      + intros t G. specialize (ws_inv0 t G). destruct (W t) as [u tp rr|a b]; auto. destruct ws_inv0 as [I1 I2]. split; auto.
        intros d u Hd. apply I2. apply in_app_or in Hd. apply in_or_app. destruct Hd; auto.
    - destruct IH. destruct HE as [HE1 HE2].
      destruct (normal_form_total E gtb strong minterm enum (set_date z0 z1) full sg gt R Q K FO O HG HMin ws_K0 ws_R0 ws_Q0
                  ws_RO0 ws_QO0 HE1 HE2 t Gt W r ws_inv0) as [N [W2 [t2 [A1 [A2 _]]]]].
      assert (X : W' = W2).
      { specialize (A1 (N + n) ltac:(lia)). unfold normal_form in *.
        apply (run_mono E gtb strong minterm enum (set_date z0 z1) full n (N + n)) in HN; [|lia]. rewrite A1 in HN. congruence. }
      subst W2. split; auto. eapply run_bounded; [|exact HN|auto]. unfold demod_date, set_date. destruct full; lia.
    - destruct IH. assert (HI : incl K (d :: K)) by (intros x Hx; right; auto). split; auto.
      + intros x [<-|Hx]; auto.
      + intros x Hx. right. auto.
      + intros x Hx. right. auto.
      + apply backward_inv; auto.
        * intros x [<-|Hx]; auto.
        * intros u Gu. apply (cell_more R Q K); auto.
        * left; auto.
      + unfold backward_link. destruct (smatch _ _ _ _ _ _); auto. destruct (if ori (dlit d) then _ else _); auto.
        destruct (_ || _); auto. destruct (term_eqb _ _); auto. apply bounded_set; auto.
  Qed.

  Theorem reach_normal_form W R Q z0 z1 K : reach W R Q z0 z1 K -> forall enum full t r, enumerates R Q enum -> ok t ->
    exists N W' t', (forall n, N <= n -> normal_form E gtb strong minterm enum (set_date z0 z1) full n W t r = Some (W', t')) /\
      reach W' R Q z0 z1 K /\ (t' = t \/ gt t t') /\ ok t' /\ tsort SS t' = tsort SS t /\ equal_mod E K t t' /\
      (r = false -> irreducible E gtb (if full then R ++ Q else R) t').
  Proof.
    intros H enum full t r HE Gt. pose proof (reach_ok _ _ _ _ _ _ H) as WS. destruct WS. pose proof HE as [HE1 HE2].
    destruct (normal_form_total E gtb strong minterm enum (set_date z0 z1) full sg gt R Q K FO O HG HMin ws_K0 ws_R0 ws_Q0
                  ws_RO0 ws_QO0 HE1 HE2 t Gt W r ws_inv0) as [N [W2 [t2 [A1 [A2 [[B1 [B2 [B3 B4]]] C]]]]]].
    exists N, W2, t2. split; auto. split; [apply (r_norm W R Q z0 z1 K enum full N t r W2 t2); auto|]. split; [destruct B1; auto|].
    repeat (split; [assumption|]). exact C.
  Qed.

  (** ** Literals and clauses *)
  Definition lit_ok (e : eqn) : Prop := ok (lt e) /\ ok (rt e) /\ tsort SS (lt e) = tsort SS (rt e).
  (** the orientation mark is right unless it is flagged as out of date *)
  Definition mark_ok (e : eqn) : Prop := uptodate e = true -> ori e = true -> gt (lt e) (rt e).

  Record lit_below (K : list dem) (e e' : eqn) : Prop := {
    lb_pos : pos e' = pos e;
    lb_ok : lit_ok e';
    lb_lv : equal_mod E K (lt e) (lt e');
    lb_rv : equal_mod E K (rt e) (rt e');
    lb_l : lt e' = lt e \/ gt (lt e) (lt e');
    lb_r : rt e' = rt e \/ gt (rt e) (rt e');
    lb_mark : mark_ok e -> mark_ok e' }.

  Section Clause.
    Variables (R Q : list dem) (z0 z1 : Z) (K : list dem) (enum : nat -> term -> Z -> list dem) (full : bool).
    Hypothesis HE : enumerates R Q enum.
    Notation ds := (if full then R ++ Q else R).
    Notation eqn_nf' := (eqn_nf E gtb strong minterm enum (set_date z0 z1) full).
    Notation lits_nf' := (lits_nf E gtb strong minterm enum (set_date z0 z1) full).
    Notation clause_nf' := (clause_nf E gtb strong minterm enum (set_date z0 z1) full).

    Lemma eqn_nf_ok W e lim : reach W R Q z0 z1 K -> lit_ok e ->
      exists N W' e' mx, (forall n, N <= n -> eqn_nf' n W e lim = Some (W', e', mx)) /\
        reach W' R Q z0 z1 K /\ lit_below K e e' /\ irreducible E gtb ds (rt e') /\
        (maxi e && pos e && ori e && lim = false -> irreducible E gtb ds (lt e')).
    Proof.
      intros HR [Gl [Gr HS]]. unfold eqn_nf. set (res := maxi e && pos e && ori e && lim).
      destruct (reach_normal_form W R Q z0 z1 K HR enum full (lt e) res HE Gl) as [N1 [W1 [l [A1 [A2 [A3 [A4 [A5 [A6 A7]]]]]]]]].
      destruct (reach_normal_form W1 R Q z0 z1 K A2 enum full (rt e) false HE Gr) as [N2 [W2 [r [B1 [B2 [B3 [B4 [B5 [B6 B7]]]]]]]]].
      eexists (N1 + N2), W2, _, _. split.
      { intros n Hn. rewrite A1 by lia. rewrite B1 by lia. reflexivity. }
      split; auto. split; [split; auto|].
      - split; [exact A4|split; [exact B4|cbn; congruence]].
      - intros HMk. unfold mark_ok in *. cbn. intros HU HO. apply andb_true_iff in HU. destruct HU as [HU _].
        apply andb_true_iff in HU. destruct HU as [HU1 HU2]. apply negb_true_iff, negb_false_iff, term_eqb_eq in HU2. subst l.
        specialize (HMk HU1 HO). destruct B3 as [->|B3]; auto. apply (so_trans _ _ _ O _ (rt e)); auto.
      - split; [apply B7; auto|]. exact A7.
    Qed.

    Lemma lit_below_trans e1 e2 e3 : lit_ok e1 -> lit_below K e1 e2 -> lit_below K e2 e3 -> lit_below K e1 e3.
    Proof.
      intros [G1 [G2 _]] [P1 [P2a [P2b _]] P3 P4 P5 P6 P7] [Q1 Q2 Q3 Q4 Q5 Q6 Q7]. pose proof Q2 as [Q2a [Q2b _]]. split; auto.
      - congruence.
      - intros M HM HT v Hv. rewrite (P3 M HM HT v Hv). auto.
      - intros M HM HT v Hv. rewrite (P4 M HM HT v Hv). auto.
      - destruct P5 as [P5|P5], Q5 as [Q5|Q5]; [left; congruence|right; congruence|right; congruence|right].
        apply (so_trans _ _ _ O _ (lt e2)); auto.
      - destruct P6 as [P6|P6], Q6 as [Q6|Q6]; [left; congruence|right; congruence|right; congruence|right].
        apply (so_trans _ _ _ O _ (rt e2)); auto.
    Qed.

    Lemma lits_nf_ok : forall c W lim, reach W R Q z0 z1 K -> Forall lit_ok c ->
      exists N W' c' lim', (forall n, N <= n -> lits_nf' n W c lim = Some (W', c', lim')) /\
        reach W' R Q z0 z1 K /\ Forall2 (lit_below K) c c' /\ (lim = false -> lim' = false) /\
        Forall (fun e' => irreducible E gtb ds (rt e') /\ (lim = false -> irreducible E gtb ds (lt e'))) c'.
    Proof.
      induction c as [|e c IH]; intros W lim HR HO.
      - exists 0, W, [], lim. split; auto.
      - inversion HO as [|? ? He Hc]; subst.
        destruct (eqn_nf_ok W e lim HR He) as [N1 [W1 [e' [mx [A1 [A2 [A3 [A4 A5]]]]]]]].
        destruct (IH W1 (lim && negb (mx && pos e && maxi e)) A2 Hc) as [N2 [W2 [c' [lim' [B1 [B2 [B3 [B4 B5]]]]]]]].
        exists (N1 + N2), W2, (e' :: c'), lim'. split.
        { intros n Hn. cbn [lits_nf]. rewrite A1 by lia. rewrite B1 by lia. auto. }
        split; auto. split; auto. split; [intros ->; apply B4; auto|]. constructor.
        + split; auto. intros ->. apply A5. apply andb_false_r.
        + eapply Forall_impl; [|exact B5]. intros x [X1 X2]. split; auto. intros ->. apply X2. auto.
    Qed.

    Lemma lit_below_all_trans : forall c1 c2 c3, Forall lit_ok c1 -> Forall2 (lit_below K) c1 c2 -> Forall2 (lit_below K) c2 c3 -> Forall2 (lit_below K) c1 c3.
    Proof.
      induction c1 as [|e c1 IH]; intros c2 c3 HO H1 H2; inversion H1; subst; inversion H2; subst; constructor.
      - inversion HO; subst. eapply lit_below_trans; eauto.
      - inversion HO; subst. eapply IH; eauto.
    Qed.

    Lemma clause_nf_ok c W lim : reach W R Q z0 z1 K -> Forall lit_ok c ->
      exists N W' c' lim', (forall n, N <= n -> clause_nf' n W c lim = Some (W', c', lim')) /\
        reach W' R Q z0 z1 K /\ Forall2 (lit_below K) c c' /\
        Forall (fun e' => irreducible E gtb ds (rt e') /\ (lim' = false -> irreducible E gtb ds (lt e'))) c'.
    Proof.
      intros HR HO. destruct (lits_nf_ok c W lim HR HO) as [N1 [W1 [c1 [lim1 [A1 [A2 [A3 [A4 A5]]]]]]]].
      assert (HO1 : Forall lit_ok c1).
      { clear - A3. induction A3 as [|e e' c c' H _ IH]; constructor; auto. apply H. }
      destruct (lits_nf_ok c1 W1 lim1 A2 HO1) as [N2 [W2 [c2 [lim2 [B1 [B2 [B3 [B4 B5]]]]]]]].
      destruct (lim && negb lim1) eqn:HL.
      - exists (N1 + N2), W2, c2, lim2. split.
        { intros n Hn. unfold clause_nf. rewrite A1 by lia. rewrite HL. apply B1. lia. }
        split; auto. split; [eapply lit_below_all_trans; eauto|].
        apply andb_true_iff in HL. destruct HL as [_ HL]. apply negb_true_iff in HL. subst lim1.
        eapply Forall_impl; [|exact B5]. intros x [X1 X2]. auto.
      - exists N1, W1, c1, lim1. split.
        { intros n Hn. unfold clause_nf. rewrite A1 by lia. rewrite HL. auto. }
        split; auto. split; auto.
        eapply Forall_impl; [|exact A5]. intros x [X1 X2]. split; auto. intros ->. apply X2.
        destruct lim; auto; try discriminate.
    Qed.

    (** the clause keeps its meaning in all models of the demodulators *)
    Lemma lit_below_true M c c' : model_ok SS (dist E) M -> (forall d, In d K -> clause_true SS M [dlit d]) ->
      Forall2 (lit_below K) c c' -> (clause_true SS M c <-> clause_true SS M c').
    Proof.
      intros HM HT HF. unfold clause_true.
      assert (X : forall v, respects SS M v -> (Exists (holds M v) c <-> Exists (holds M v) c')).
      { intros v Hv. induction HF as [|e e' c c' H _ IH]; [split; auto|].
        rewrite !Exists_cons, IH. destruct H as [P1 _ P3 P4 _ _ _]. unfold holds, lit_holds. rewrite P1, (P3 M HM HT v Hv), (P4 M HM HT v Hv). tauto. }
      split; intros H v Hv; apply X; auto.
    Qed.
  End Clause.
End Hist.
