(** * Proofs about clausification: quantifier shifting, clauses, the whole conversion. *)
From Coq Require Import Classical ClassicalEpsilon.
From Verif Require Import Terms Unify UnifyProofs MatchProofs KBO Semantics Clauses ClausesProofs LitOrder Infer InferProofs InferTotal
  Split SplitProofs SplitSemProofs CNF CNFProofs CNFTermProofs CNFSkolemProofs.

(** ** Shifting quantifiers *)
Lemma core_good f : univ f -> exists g, extract_core f = (g, bvars f) /\ qfree g /\ is_nnf g /\ (forall E, form_ok E f -> form_ok E g) /\ form_syms g = form_syms f /\
  (forall x, In x (free_vars g) -> In x (free_vars f) \/ In x (bvars f)).
Proof.
  induction f as [p l r|t|a IH|o a IHa b IHb|q x a IH]; intros U; try destruct U.
  - exists (FLit p l r). cbn. auto 10.
  - assert (O : (o = And \/ o = Or) /\ univ a /\ univ b) by (destruct o; cbn in U; tauto). destruct O as [O [Ua Ub]].
    destruct (IHa Ua) as [ga [Ea [Qa [Na [Fa [Sa Va]]]]]]. destruct (IHb Ub) as [gb [Eb [Qb [Nb [Fb [Sb Vb]]]]]]. exists (FBin o ga gb).
    assert (EX : extract_core (FBin o a b) = (FBin o ga gb, bvars a ++ bvars b)) by (destruct O as [-> | ->]; cbn [extract_core]; rewrite Ea, Eb; reflexivity).
    split; [exact EX|]. split; [split; auto|]. split; [destruct O as [-> | ->]; split; auto|]. split; [intros E [X Y]; split; auto|]. split; [cbn; congruence|].
    cbn [free_vars bvars]. intros x Hx. rewrite !in_app_iff in *. destruct Hx as [Hx|Hx]; [destruct (Va x Hx)|destruct (Vb x Hx)]; auto.
  - destruct q; [|destruct U]. destruct (IH U) as [g [Eg [Qg [Ng [Fg [Sg Vg]]]]]]. exists g. split; [cbn [extract_core]; rewrite Eg; reflexivity|]. split; auto. split; auto.
    split; [intros E [X Y]; auto|]. split; auto. intros y Hy. cbn [free_vars bvars In]. destruct (Vg y Hy) as [H|H]; auto.
    destruct (Nat.eq_dec x y) as [<-|N]; [right; left; auto|]. left. apply filter_In. split; auto. apply negb_true_iff, Nat.eqb_neq; auto.
Qed.

Section Shift.
  Variables (S : sorting) (M : structure).
  Definition varies (vs : list var) (v w : var -> dom M) : Prop := forall z, ~ In z vs -> w z = v z.
  Definition on (vs : list var) (w v : var -> dom M) : var -> dom M := fun z => if in_dec Nat.eq_dec z vs then w z else v z.
  Lemma on_in vs w v z : In z vs -> on vs w v z = w z.
  Proof. intros H. unfold on. destruct (in_dec Nat.eq_dec z vs); tauto. Qed.
  Lemma on_out vs w v z : ~ In z vs -> on vs w v z = v z.
  Proof. intros H. unfold on. destruct (in_dec Nat.eq_dec z vs); tauto. Qed.
  Lemma on_respects vs w v : respects S M w -> respects S M v -> respects S M (on vs w v).
  Proof. intros A B x. unfold on. destruct (in_dec Nat.eq_dec x vs); auto. Qed.

  Lemma core_sem f : univ f -> NoDup (bvars f) -> (forall x, In x (bvars f) -> In x (free_vars f) -> False) -> forall g, extract_core f = (g, bvars f) ->
    forall v, respects S M v -> (sem S M v f <-> forall w, respects S M w -> varies (bvars f) v w -> sem S M w g).
  Proof.
    induction f as [p l r|t|a IH|o a IHa b IHb|q x a IH]; intros U ND DJ g EX v Hv; try destruct U.
    - injection EX as <-. split.
      + intros X w Hw Vw. apply (sem_ext S M (FLit p l r) v w); auto. intros z _. symmetry. apply Vw. intros [].
      + intros X. apply X; auto. intros z _. auto.
    - assert (O : (o = And \/ o = Or) /\ univ a /\ univ b) by (destruct o; cbn in U; tauto). destruct O as [O [Ua Ub]]. cbn [bvars free_vars] in *.
      apply nodup_app_iff in ND. destruct ND as [NDa [NDb NAB]].
      destruct (core_good a Ua) as [ga [Ea [Qa [Na [Fa [Sa Va]]]]]]. destruct (core_good b Ub) as [gb [Eb [Qb [Nb [Fb [Sb Vb]]]]]].
      assert (Eg : g = FBin o ga gb) by (destruct O as [-> | ->]; cbn [extract_core] in EX; rewrite Ea, Eb in EX; injection EX as <-; reflexivity). subst g. clear EX.
      assert (DA : forall x, In x (bvars a) -> In x (free_vars a) -> False) by (intros x X Y; apply (DJ x); apply in_or_app; auto).
      assert (DB : forall x, In x (bvars b) -> In x (free_vars b) -> False) by (intros x X Y; apply (DJ x); apply in_or_app; auto).
      pose proof (IHa Ua NDa DA ga Ea v Hv) as Xa. pose proof (IHb Ub NDb DB gb Eb v Hv) as Xb.
      assert (GA : forall z, In z (free_vars ga) -> In z (bvars b) -> False).
      { intros z Hz Hb. destruct (Va z Hz) as [H|H]; [apply (DJ z); apply in_or_app; auto|apply (NAB z); auto]. }
      assert (GB : forall z, In z (free_vars gb) -> In z (bvars a) -> False).
      { intros z Hz Ha. destruct (Vb z Hz) as [H|H]; [apply (DJ z); apply in_or_app; auto|apply (NAB z); auto]. }
      assert (Ya : sem S M v a -> forall w, respects S M w -> varies (bvars a ++ bvars b) v w -> sem S M w ga).
      { intros X w Hw Vw. apply (sem_ext S M ga (on (bvars a) w v)).
        - intros z Hz. destruct (in_dec Nat.eq_dec z (bvars a)) as [I|N]; [apply on_in; auto|]. rewrite on_out by auto. symmetry. apply Vw. intros Y. apply in_app_or in Y. destruct Y; eauto.
        - apply (proj1 Xa X); [apply on_respects; auto|intros z Hz; apply on_out; auto]. }
      assert (Yb : sem S M v b -> forall w, respects S M w -> varies (bvars a ++ bvars b) v w -> sem S M w gb).
      { intros X w Hw Vw. apply (sem_ext S M gb (on (bvars b) w v)).
        - intros z Hz. destruct (in_dec Nat.eq_dec z (bvars b)) as [I|N]; [apply on_in; auto|]. rewrite on_out by auto. symmetry. apply Vw. intros Y. apply in_app_or in Y. destruct Y; eauto.
        - apply (proj1 Xb X); [apply on_respects; auto|intros z Hz; apply on_out; auto]. }
      cbn [sem]. destruct O as [-> | ->]; cbn [op_sem]; split.
      + intros [X Y] w Hw Vw. split; auto.
      + intros X. split; [apply Xa|apply Xb]; intros w Hw Vw; apply X; auto; intros z Hz; apply Vw; intros I; apply Hz, in_or_app; auto.
      + intros [X|X] w Hw Vw; [left|right]; auto.
      + intros X. apply NNPP. intros N. apply not_or_and in N. destruct N as [N1 N2].
        assert (W1 : exists w, respects S M w /\ varies (bvars a) v w /\ ~ sem S M w ga).
        { apply NNPP. intros Y. apply N1, Xa. intros w Hw Vw. apply NNPP. intros Z. apply Y. exists w; auto. }
        assert (W2 : exists w, respects S M w /\ varies (bvars b) v w /\ ~ sem S M w gb).
        { apply NNPP. intros Y. apply N2, Xb. intros w Hw Vw. apply NNPP. intros Z. apply Y. exists w; auto. }
        destruct W1 as [w1 [Hw1 [Vw1 Z1]]]. destruct W2 as [w2 [Hw2 [Vw2 Z2]]].
        assert (Hw : respects S M (on (bvars a) w1 w2)) by (apply on_respects; auto).
        destruct (X (on (bvars a) w1 w2) Hw) as [Y|Y].
        * intros z Hz. rewrite on_out; [apply Vw2|]; intros I; apply Hz, in_or_app; auto.
        * apply Z1. apply (sem_ext S M ga (on (bvars a) w1 w2)); auto. intros z Hz. destruct (in_dec Nat.eq_dec z (bvars a)) as [I|NI]; [apply on_in; auto|].
          rewrite on_out by auto. rewrite Vw2 by eauto. symmetry. apply Vw1; auto.
        * apply Z2. apply (sem_ext S M gb (on (bvars a) w1 w2)); auto. intros z Hz. apply on_out. intros I. eauto.
    - destruct q; [|destruct U]. cbn [bvars free_vars] in *. inversion ND as [|x0 l0 NX NDa E0]; subst x0 l0.
      destruct (core_good a U) as [ga [Ea [Qa [Na [Fa [Sa Va]]]]]]. cbn [extract_core] in EX. rewrite Ea in EX. injection EX as <-.
      assert (DA : forall y, In y (bvars a) -> In y (free_vars a) -> False).
      { intros y Hy Fy. apply (DJ y); [right; auto|]. apply filter_In. split; auto. apply negb_true_iff, Nat.eqb_neq. intros ->. contradiction. }
      cbn [sem]. split.
      + intros X w Hw Vw. specialize (X (w x) (Hw x)). apply (proj1 (IH U NDa DA ga Ea _ (respects_vset S M v x (w x) Hv (Hw x))) X); auto.
        intros z Hz. destruct (Nat.eq_dec x z) as [<-|N]; [rewrite vset_same; auto|]. rewrite vset_other by auto. apply Vw. intros [I|I]; auto.
      + intros X d Hd. apply (IH U NDa DA ga Ea _ (respects_vset S M v x d Hv Hd)). intros w Hw Vw. apply X; auto.
        intros z Hz. rewrite Vw; [apply vset_other; intros ->; apply Hz; left; auto|]. intros I. apply Hz. right; auto.
  Qed.
  Lemma prefix_sem g : forall vs v, respects S M v -> (sem S M v (fold_right (FQ true) g vs) <-> forall w, respects S M w -> varies vs v w -> sem S M w g).
  Proof.
    induction vs as [|x vs IH]; intros v Hv; cbn [fold_right].
    - split.
      + intros X w Hw Vw. apply (sem_ext S M g v w); auto. intros z _. symmetry. apply Vw. intros [].
      + intros X. apply X; auto. intros z _. auto.
    - cbn [sem]. split.
      + intros X w Hw Vw. apply (proj1 (IH _ (respects_vset S M v x (w x) Hv (Hw x))) (X (w x) (Hw x))); auto.
        intros z Hz. destruct (Nat.eq_dec x z) as [<-|N]; [rewrite vset_same; auto|]. rewrite vset_other by auto. apply Vw. intros [I|I]; auto.
      + intros X d Hd. apply (IH _ (respects_vset S M v x d Hv Hd)). intros w Hw Vw. apply X; auto.
        intros z Hz. rewrite Vw; [apply vset_other; intros ->; apply Hz; left; auto|]. intros I. apply Hz. right; auto.
  Qed.
End Shift.
Lemma shift_good E f : univ f -> form_ok E f -> NoDup (bvars f) -> (forall x, In x (bvars f) -> In x (free_vars f) -> False) ->
  prenex (shift_quantors f) /\ is_nnf (shift_quantors f) /\ form_ok E (shift_quantors f) /\ form_syms (shift_quantors f) = form_syms f /\
  forall M v, respects (srt E) M v -> (sem (srt E) M v (shift_quantors f) <-> sem (srt E) M v f).
Proof.
  intros U OK ND DJ. destruct (core_good f U) as [g [EX [Q [N [F [SY V]]]]]]. unfold shift_quantors. rewrite EX.
  assert (BV : forall x, In x (bvars f) -> is_fresh x = false).
  { clear - OK. induction f as [p l r|t|a IH|o a IHa b IHb|q x a IH]; cbn [bvars form_ok] in *; intros y Hy; try (destruct Hy; fail).
    - auto.
    - apply in_app_or in Hy. destruct Hy; [apply IHa|apply IHb]; tauto.
    - destruct Hy as [<-|Hy]; [|apply IH]; tauto. }
  assert (X : forall vs, (forall x, In x vs -> is_fresh x = false) -> prenex (fold_right (FQ true) g vs) /\ is_nnf (fold_right (FQ true) g vs) /\ form_ok E (fold_right (FQ true) g vs) /\ form_syms (fold_right (FQ true) g vs) = form_syms f).
  { induction vs as [|x vs IH]; intros P; cbn [fold_right].
    - split; [destruct g as [| | | |[]]; auto; destruct Q|]. auto.
    - destruct IH as [A [B [C D]]]; [intros; apply P; right; auto|]. cbn. repeat split; auto. apply P; left; auto. }
  destruct (X (bvars f) BV) as [A [B [C D]]]. split; [exact A|]. split; [exact B|]. split; [exact C|]. split; [exact D|]. intros M v Hv.
  rewrite prefix_sem by auto. symmetry. apply core_sem; auto.
Qed.

(** ** Clauses *)
Section Clause.
  Variable E : env.
  Hypothesis HE : env_ok E.
  Notation S := (srt E).
  Lemma disj_lits_ok f : disj f -> form_ok E f -> clause_ok E (disj_lits E f).
  Proof.
    unfold clause_ok. induction f as [p l r|t|a IH|o a IHa b IHb|q x a IH]; cbn [disj disj_lits form_ok]; try tauto.
    - intros _ [A [B [C [D F]]]]. constructor; [|constructor]. apply eqn_alloc_ok; auto.
    - destruct o; try tauto. intros [A B] [C D]. apply Forall_app. auto.
  Qed.
  Lemma disj_lits_sem f M v : disj f -> form_ok E f -> model_ok S (dist E) M -> respects S M v -> (Exists (holds M v) (disj_lits E f) <-> sem S M v f).
  Proof.
    intros D OK HM Hv. induction f as [p l r|t|a IH|o a IHa b IHb|q x a IH]; cbn [disj disj_lits form_ok sem] in *; try tauto.
    - destruct OK as [A [B [C _]]]. rewrite Exists_cons, Exists_nil, (eqn_alloc_holds E M HE HM v); auto. tauto.
    - destruct o; try tauto. rewrite Exists_app, IHa, IHb by tauto. cbn. tauto.
  Qed.
  Lemma eqn_alloc_syms l r p f : In f (lit_syms (eqn_alloc E l r p)) -> In f (tsyms l) \/ In f (tsyms r) \/ f = true_code.
  Proof.
    unfold eqn_alloc. set (A := if term_eqb l tfalse then (ttrue, negb p) else (l, p)).
    assert (HA : forall g, In g (tsyms (fst A)) -> In g (tsyms l) \/ g = true_code).
    { unfold A. destruct (term_eqb l tfalse); cbn [fst]; auto. intros g [<-|[]]; auto. }
    destruct A as [l1 p1]. cbn [fst] in HA. set (B := if term_eqb r tfalse then (ttrue, negb p1) else (r, p1)).
    assert (HB : forall g, In g (tsyms (fst B)) -> In g (tsyms r) \/ g = true_code).
    { unfold B. destruct (term_eqb r tfalse); cbn [fst]; auto. intros g [<-|[]]; auto. }
    destruct B as [r1 p2]. cbn [fst] in HB. unfold lit_syms.
    repeat match goal with |- context [if ?c then _ else _] => destruct c end; cbn [lt rt]; intros H; apply in_app_or in H; destruct H as [H|H];
      try (destruct (HA f H); auto; fail); try (destruct (HB f H); auto; fail).
  Qed.
  Lemma disj_lits_syms f n : 2 < n -> disj f -> (forall s, In s (form_syms f) -> s < n) -> below n (disj_lits E f).
  Proof.
    intros N2. induction f as [p l r|t|a IH|o a IHa b IHb|q x a IH]; cbn [disj disj_lits form_syms]; try tauto.
    - intros _ B e s [<-|[]] Hs. apply eqn_alloc_syms in Hs. destruct Hs as [H|[H| ->]]; [apply B, in_or_app; auto|apply B, in_or_app; auto|unfold true_code; lia].
    - destruct o; try tauto. intros [Da Db] B e s He Hs. apply in_app_or in He. destruct He as [He|He]; [apply (IHb Db) with e|apply (IHa Da) with e]; auto; intros; apply B, in_or_app; auto.
  Qed.

  (** a variant of a clause is true in the same structures *)
  Lemma variant_true M sg l : model_ok S (dist E) M -> wfsubst S sg -> clause_ok E l ->
    (forall x, In x (flat_map lit_vars l) -> exists y, sg x = Var y) ->
    (forall x x', In x (flat_map lit_vars l) -> In x' (flat_map lit_vars l) -> sg x = sg x' -> x = x') ->
    (clause_true S M (map (inst_lit E sg) l) <-> clause_true S M l).
  Proof.
    intros HM WS OK VAR INJ. set (V := flat_map lit_vars l) in *. unfold clause_ok in OK. rewrite Forall_forall in OK. split; intros H v Hv.
    - set (w := fun y => match find (fun x => term_eqb (sg x) (Var y)) V with Some x => v x | None => v y end).
      assert (Hw : respects S M w).
      { intros y. unfold w. destruct (find _ V) as [x|] eqn:Q; [|apply Hv]. apply find_some in Q. destruct Q as [_ Q]. apply term_eqb_eq in Q.
        destruct (WS x) as [A _]. rewrite Q in A. cbn in A. rewrite A. apply Hv. }
      assert (WV : forall x, In x V -> eval M w (sg x) = v x).
      { intros x Hx. destruct (VAR x Hx) as [y Ey]. rewrite Ey. cbn [eval]. unfold w. destruct (find (fun x => term_eqb (sg x) (Var y)) V) as [x'|] eqn:Q.
        - apply find_some in Q. destruct Q as [Hx' Q]. apply term_eqb_eq in Q. rewrite (INJ x' x); auto. congruence.
        - pose proof (find_none _ _ Q x Hx) as X. cbn in X. rewrite Ey in X. rewrite (proj2 (term_eqb_eq _ _) eq_refl) in X. discriminate. }
      specialize (H w Hw). apply Exists_exists in H. destruct H as [e' [He' Hh]]. apply in_map_iff in He'. destruct He' as [e [<- He]]. apply Exists_exists. exists e. split; auto.
      apply (inst_lit_holds E M HE HM) in Hh; auto. unfold holds in *. revert Hh. apply lit_ext. intros x Hx. unfold val. symmetry. apply WV. unfold V. apply in_flat_map. exists e. split; auto.
    - apply (insts_hold E M HE HM); auto; [unfold clause_ok; rewrite Forall_forall; auto|]. apply H. eapply respects_subst; eauto.
  Qed.

  Lemma collect_total f : exists c N, forall fuel, N <= fuel -> collect_clause fuel E f = Some c.
  Proof.
    unfold collect_clause. cbv zeta. set (l := rev (disj_lits E f)). pose proof (good_start E) as HG. pose proof HG as [HI _]. pose proof (good_fresh E _ HG) as HF.
    destruct (acyclic_denotes _ (inv_acyclic _ _ HI)) as [s0 D0].
    destruct (ev_norm E start (fun _ => 0) l s0 HE HI HF D0) as [[st1 c1] HN]. pose proof HN as [N0 HN0].
    destruct (norm_state E N0 start (fun _ => 0) _ st1 c1 HE HG (HN0 N0 (le_n _))) as [s0' [s1 [_ [D1 [_ [_ [_ [_ R]]]]]]]].
    destruct (ev_copies E (bnd st1) s1 l (inv_acyclic _ _ (nr_inv _ _ _ _ _ _ _ R)) D1) as [l' Hl].
    destruct (eventually_both _ _ _ _ HN Hl) as [N HX]. exists (clause_alloc l'), N. intros n Hn. destruct (HX n Hn) as [A B].
    match goal with |- match ?X with _ => _ end = _ => replace X with (Some (st1, c1)) by (symmetry; exact A) end. unfold copies in B. rewrite B. reflexivity.
  Qed.
  Lemma collect_correct fuel f c n : disj f -> form_ok E f -> collect_clause fuel E f = Some c -> 2 < n -> (forall s, In s (form_syms f) -> s < n) ->
    clause_ok E c /\ below n c /\ forall M, model_ok S (dist E) M -> (clause_true S M c <-> forall v, respects S M v -> sem S M v f).
  Proof.
    intros D OK H N2 SY. unfold collect_clause in H. cbv zeta in H. set (l := rev (disj_lits E f)) in H. fold start in H.
    match type of H with match ?X with _ => _ end = _ => destruct X as [[st1 c1]|] eqn:HN; [|discriminate] end. destruct (mapo (copy_opt fuel E (bnd st1)) l) as [l'|] eqn:HC; [|discriminate]. injection H as <-.
    destruct (norm_state E fuel start (fun _ => 0) _ st1 c1 HE (good_start E) HN) as [s0 [s1 [D0 [D1 [W1 [W0 [E1 [_ R]]]]]]]].
    assert (CL : clause_ok E l) by (apply Forall_rev, disj_lits_ok; auto).
    assert (EL : l' = map (inst_lit E (sg s1)) l) by (apply (copies_inst E (bnd st1) s1 fuel l l' D1); exact HC).
    assert (S0 : forall x, s0 x = Var x) by (intros x; apply (D0 x)).
    assert (VP : forall x, In x (flat_map lit_vars l) -> is_fresh x = false /\ exists t, In t (eqn_terms l) /\ In x (vars (app s0 t))).
    { intros x Hx. apply in_flat_map in Hx. destruct Hx as [e [He Hx]]. unfold clause_ok in CL. rewrite Forall_forall in CL. destruct (CL e He) as [_ [_ [_ [P1 P2]]]].
      assert (AP : forall t, app s0 t = t) by (intros t; rewrite <- (app_var t) at 2; apply app_ext_all; auto).
      apply in_app_or in Hx. destruct Hx as [Hx|Hx].
      - split; auto. exists (lt e). rewrite AP. split; auto. apply in_flat_map. exists e. cbn; auto.
      - split; auto. exists (rt e). rewrite AP. split; auto. apply in_flat_map. exists e. cbn; auto. }
    assert (SX : forall x, In x (flat_map lit_vars l) -> exists k, bnd st1 x = Some (Var (fresh E (vsort S x) k)) /\ sg s1 x = Var (prim (fresh E (vsort S x) k))).
    { intros x Hx. destruct (VP x Hx) as [Px [t [Ht Hxt]]]. pose proof (nr_all _ _ _ _ _ _ _ R t x Ht Hxt Px) as NB. destruct (bnd st1 x) as [u|] eqn:B1; [|congruence].
      destruct (nm_new _ _ _ _ _ (nr_normed _ _ _ _ _ _ _ R) x u eq_refl B1) as [_ [k [_ ->]]]. exists k. split; auto. unfold sg, comp. rewrite E1. unfold comp. rewrite S0. cbn [app].
      unfold nu. cbn [bnd start]. rewrite B1. reflexivity. }
    assert (INJ : forall x x', In x (flat_map lit_vars l) -> In x' (flat_map lit_vars l) -> sg s1 x = sg s1 x' -> x = x').
    { intros x x' Hx Hx' EQ. destruct (SX x Hx) as [k [B1 G1]]. destruct (SX x' Hx') as [k' [B2 G2]]. rewrite G1, G2 in EQ. injection EQ as EQ.
      apply prim_fresh_inj in EQ; try apply (eo_fresh_cell E HE).
      apply (nm_inj _ _ _ _ _ (nr_normed _ _ _ _ _ _ _ R) x x' (Var (fresh E (vsort S x) k))); auto. rewrite B2. congruence. }
    split; [|split].
    - unfold clause_ok. apply Forall_forall. intros e He. rewrite clause_alloc_in in He. rewrite EL in He. apply in_map_iff in He. destruct He as [e0 [<- He0]].
      unfold clause_ok in CL. rewrite Forall_forall in CL. apply inst_lit_ok; auto.
    - intros e s He Hs. rewrite clause_alloc_in in He. rewrite EL in He. apply in_map_iff in He. destruct He as [e0 [<- He0]]. unfold inst_lit in Hs.
      change (lit_syms (copy_props (eqn_alloc E (app (sg s1) (lt e0)) (app (sg s1) (rt e0)) (pos e0)) e0)) with (lit_syms (eqn_alloc E (app (sg s1) (lt e0)) (app (sg s1) (rt e0)) (pos e0))) in Hs.
      assert (BL : forall s, In s (lit_syms e0) -> s < n) by (intros s' Hs'; apply (disj_lits_syms f n N2 D SY e0 s'); auto; apply in_rev in He0; auto).
      assert (AS : forall t, (forall x, In x (vars t) -> In x (lit_vars e0)) -> (forall g, In g (tsyms t) -> In g (lit_syms e0)) -> forall g, In g (tsyms (app (sg s1) t)) -> g < n).
      { intros t HV HT g Hg. apply tsyms_app in Hg. destruct Hg as [Hg|[x [Hx Hg]]]; auto. destruct (SX x) as [k [_ G1]]; [apply in_flat_map; exists e0; auto|]. rewrite G1 in Hg. destruct Hg. }
      apply eqn_alloc_syms in Hs. destruct Hs as [Hs|[Hs| ->]]; [apply (AS (lt e0)); auto; intros; apply in_or_app; auto|apply (AS (rt e0)); auto; intros; apply in_or_app; auto|unfold true_code; lia].
    - intros M HM. assert (X : clause_true S M (clause_alloc l') <-> clause_true S M l').
      { unfold clause_true. split; intros H v Hv; [rewrite <- clause_alloc_holds|rewrite clause_alloc_holds]; auto. }
      rewrite X, EL. rewrite variant_true; auto; [|apply sg_wf; auto|intros x Hx; destruct (SX x Hx) as [k [_ ->]]; eauto].
      unfold clause_true. split; intros H v Hv; specialize (H v Hv).
      + apply (disj_lits_sem f M v D OK HM Hv). rewrite Exists_exists in *. destruct H as [e [A B]]. exists e. split; auto. apply in_rev. auto.
      + apply (disj_lits_sem f M v D OK HM Hv) in H. rewrite Exists_exists in *. destruct H as [e [A B]]. exists e. split; auto. apply -> in_rev. auto.
  Qed.

  Lemma skip_good f : cnf_shape f -> form_ok E f -> conj_disj (skip_quantors f) /\ form_ok E (skip_quantors f) /\ form_syms (skip_quantors f) = form_syms f /\
    forall M, model_ok S (dist E) M -> (form_true S M (skip_quantors f) <-> form_true S M f).
  Proof.
    induction f as [p l r|t|a IH|o a IHa b IHb|q x a IH]; intros C OK; try (cbn [skip_quantors]; repeat (split; auto); tauto).
    destruct q; [|destruct C]. cbn [skip_quantors]. destruct OK as [Px OKa]. destruct (IH C OKa) as [A [B [D F]]]. do 3 (split; auto). intros M HM. rewrite F by auto.
    unfold form_true. split; intros X v Hv.
    - intros d Hd. apply X. apply respects_vset; auto.
    - specialize (X v Hv (v x) (Hv x)). apply (sem_ext S M a (vset v x (v x))); auto. intros z _. unfold vset. destruct (Nat.eqb_spec x z); congruence.
  Qed.
  Lemma conjuncts_good f : conj_disj f -> form_ok E f -> (forall g, In g (conjuncts f) -> disj g /\ form_ok E g /\ incl (form_syms g) (form_syms f)) /\
    forall M, form_true S M f <-> forall g, In g (conjuncts f) -> form_true S M g.
  Proof.
    assert (ONE : forall f, conj_disj f -> form_ok E f -> (forall a b, f <> FBin And a b) -> (forall g, In g [f] -> disj g /\ form_ok E g /\ incl (form_syms g) (form_syms f)) /\ (forall M, form_true S M f <-> forall g, In g [f] -> form_true S M g)).
    { clear f. intros f C OK NA. split.
      - intros g [<-|[]]. split; [destruct f as [| | |[] a b|]; auto; exfalso; eapply NA; reflexivity|]. split; auto. apply incl_refl.
      - intros M. split; [intros X g [<-|[]]; auto|intros X; apply X; left; auto]. }
    induction f as [p l r|t|a IH|o a IHa b IHb|q x a IH]; intros C OK; try (apply ONE; auto; intros; discriminate).
    destruct o; try (apply ONE; auto; intros; discriminate). destruct C as [Ca Cb]. destruct OK as [OKa OKb]. destruct (IHa Ca OKa) as [A1 A2]. destruct (IHb Cb OKb) as [B1 B2]. cbn [conjuncts]. split.
    - intros g Hg. apply in_app_or in Hg. cbn [form_syms]. destruct Hg as [Hg|Hg]; [destruct (B1 g Hg) as [X [Y Z]]|destruct (A1 g Hg) as [X [Y Z]]]; repeat split; auto; [apply incl_appr|apply incl_appl]; auto.
    - intros M. specialize (A2 M). specialize (B2 M). split.
      + intros X g Hg. assert (Xa : form_true S M a) by (intros v Hv; apply (X v Hv)). assert (Xb : form_true S M b) by (intros v Hv; apply (X v Hv)).
        apply in_app_or in Hg. destruct Hg; [apply (proj1 B2)|apply (proj1 A2)]; auto.
      + intros X v Hv. split; [apply (proj2 A2)|apply (proj2 B2)]; auto; intros g Hg; apply X, in_or_app; auto.
  Qed.

  Lemma to_cnf_total f : exists cs N, forall fuel, N <= fuel -> to_cnf fuel E f = Some cs.
  Proof.
    unfold to_cnf. destruct (ev_mapo (fun n => collect_clause n E) (conjuncts (skip_quantors f))) as [r [N H]].
    - intros a. destruct (collect_total a) as [c [N H]]. exists c, N. auto.
    - exists r, N. auto.
  Qed.
  Lemma to_cnf_correct fuel f cs n : cnf_shape f -> form_ok E f -> to_cnf fuel E f = Some cs -> 2 < n -> (forall s, In s (form_syms f) -> s < n) ->
    Forall (clause_ok E) cs /\ Forall (below n) cs /\ forall M, model_ok S (dist E) M -> (satisfied E M cs <-> form_true S M f).
  Proof.
    intros C OK H N2 SY. destruct (skip_good f C OK) as [C1 [OK1 [SY1 T1]]]. destruct (conjuncts_good _ C1 OK1) as [A B]. unfold to_cnf in H. apply mapo_spec in H.
    assert (K : forall g c, In g (conjuncts (skip_quantors f)) -> collect_clause fuel E g = Some c -> clause_ok E c /\ below n c /\ forall M, model_ok S (dist E) M -> (clause_true S M c <-> form_true S M g)).
    { intros g c Hg Hc. destruct (A g Hg) as [D [O I]]. apply (collect_correct fuel g c n); auto. intros s Hs. apply SY. rewrite <- SY1. apply I; auto. }
    assert (L : forall c, In c cs -> exists g, In g (conjuncts (skip_quantors f)) /\ collect_clause fuel E g = Some c).
    { clear - H. induction H as [|g c gs cs X _ IH]; [intros c []|]. intros c' [<-|Hc]; [exists g; split; [left|]; auto|]. destruct (IH c' Hc) as [g' [P Q]]. exists g'. split; [right|]; auto. }
    assert (L' : forall g, In g (conjuncts (skip_quantors f)) -> exists c, In c cs /\ collect_clause fuel E g = Some c).
    { clear - H. induction H as [|g c gs cs X _ IH]; [intros c []|]. intros g' [<-|Hc]; [exists c; split; [left|]; auto|]. destruct (IH g' Hc) as [c' [P Q]]. exists c'. split; [right|]; auto. }
    split; [|split].
    - apply Forall_forall. intros c Hc. destruct (L c Hc) as [g [Hg Hx]]. apply (K g c Hg Hx).
    - apply Forall_forall. intros c Hc. destruct (L c Hc) as [g [Hg Hx]]. apply (K g c Hg Hx).
    - intros M HM. rewrite <- T1 by auto. rewrite B. split.
      + intros X g Hg. destruct (L' g Hg) as [c [Hc Hx]]. apply (K g c Hg Hx); auto.
      + intros X c Hc. destruct (L c Hc) as [g [Hg Hx]]. apply (K g c Hg Hx); auto.
  Qed.
End Clause.

(** ** The conversion of one formula *)
Section Main.
  Variables (arrange : list var -> list var) (mlimit : Z) (unroll : bool).
  Hypothesis HA : forall l x, In x (arrange l) <-> In x l.

  Record conv_ok (st st' : cstate) (f : form) (g : form) : Prop := {
    cv_grows : grows (c_env st) (c_next st) (c_env st') (c_next st');
    cv_vars : forall s, c_vars st s <= c_vars st' s;
    cv_shape : cnf_shape g;
    cv_form : form_ok (c_env st') g;
    cv_syms : forall s, In s (form_syms g) -> s < c_next st';
    cv_sound : forall M, model_ok (srt (c_env st')) (dist (c_env st')) M -> form_true (srt (c_env st')) M g -> form_true (srt (c_env st)) M f;
    cv_complete : forall D so F, model_ok (srt (c_env st)) (dist (c_env st)) (mk D so F) -> form_true (srt (c_env st)) (mk D so F) f ->
      exists F', agree D (c_next st) F F' /\ model_ok (srt (c_env st')) (dist (c_env st')) (mk D so F') /\ form_true (srt (c_env st')) (mk D so F') g }.

  (** an interpretation of the extended signature interprets the old one, up to the values of symbols that are not used *)
  Lemma restrict E n E' n' M : grows E n E' n' -> next_ok E n -> model_ok (srt E') (dist E') M ->
    exists F, agree (dom M) n (ifun M) F /\ model_ok (srt E) (dist E) (mk (dom M) (isort M) F).
  Proof.
    intros G [N2 ND] HM. pose proof (gr_le _ _ _ _ G) as L.
    set (F := fun f ds => if f <? n then ifun M f ds else epsilon (inhabits (ifun M 1 [])) (isort M (fres (srt E) f))).
    assert (FB : forall f ds, f < n -> F f ds = ifun M f ds) by (intros f ds Hf; unfold F; destruct (Nat.ltb_spec f n); auto; lia).
    exists F. split; [intros f ds Hf; rewrite FB; auto|]. constructor; cbn [mk dom ifun isort].
    - intros f ds Hds. destruct (Nat.lt_ge_cases f n) as [Hf|Hf].
      + rewrite FB by auto. rewrite <- (gr_fres _ _ _ _ G) by auto. apply (mo_fun _ _ _ HM). rewrite (gr_fargs _ _ _ _ G) by auto. exact Hds.
      + unfold F. destruct (Nat.ltb_spec f n); [lia|]. apply epsilon_spec. apply (mo_inh _ _ _ HM).
    - apply (mo_inh _ _ _ HM).
    - rewrite !FB by (unfold true_code, false_code; lia). rewrite <- (gr_fres _ _ _ _ G) by (unfold true_code; lia). apply (mo_bool _ _ _ HM).
    - rewrite !FB by (unfold true_code, false_code; lia). apply (mo_tf _ _ _ HM).
    - apply (mo_dec _ _ _ HM).
    - intros f g Df Dg NE. assert (f < n) by (destruct (Nat.lt_ge_cases f n) as [|Hf]; auto; rewrite (ND f Hf) in Df; discriminate).
      assert (g < n) by (destruct (Nat.lt_ge_cases g n) as [|Hg]; auto; rewrite (ND g Hg) in Dg; discriminate). rewrite !FB by auto.
      rewrite <- (gr_dist _ _ _ _ G) in Df, Dg. apply (mo_dist _ _ _ HM); auto.
  Qed.

  Lemma conjunctive_good st f : env_ok (c_env st) -> next_ok (c_env st) (c_next st) -> input_ok st f ->
    exists g st', conjunctive_nf arrange mlimit unroll st f = Some (g, st') /\ conv_ok st st' f g.
  Proof.
    destruct st as [E n c]. cbn [c_env c_next c_vars]. intros HE HN [OK [OV SY]]. unfold conjunctive_nf. cbn [c_env c_next c_vars].
    destruct (simplify_good 1000 f) as [f1 [E1 B1]]. rewrite E1. apply (simp_better E HE) in E1.
    destruct (nnf_total f1 B1) as [f2 [E2 N2]]. rewrite E2. apply (nnf_better E HE) in E2.
    destruct (miniscope3_good mlimit f2) as [f3 [E3 N3]]. rewrite E3. apply (miniscope3_better E) in E3. specialize (N3 N2).
    pose proof (better_trans E _ _ _ E1 (better_trans E _ _ _ E2 E3)) as B13. clear E1 E2 E3. destruct HN as [N0 ND].
    pose proof (bt_ok _ _ _ B13 OK) as OK3.
    assert (SY3 : forall s, In s (form_syms f3) -> s < n) by (intros s Hs; destruct (bt_syms _ _ _ B13 s Hs) as [H|[->| ->]]; auto; unfold true_code, false_code; lia).
    destruct (rename_good E HE c f3 (fun _ => None) c) as [f4 [c1 [-> [L4 [OK4 [SY4 [ND4 [BV4 [FV4 [N4 SEM4]]]]]]]]]]; auto.
    { intros z t Hz. discriminate. }
    { intros x Hx. apply OV. apply (bt_vars _ _ _ B13); auto. }
    specialize (N4 N3).
    assert (FV4' : forall x, In x (free_vars f4) -> old_var E c x /\ In x (free_vars f3)).
    { intros x Hx. destruct (FV4 x Hx) as [z [Hz Ez]]. injection Ez as ->. split; auto. apply OV. apply (bt_vars _ _ _ B13), free_all; auto. }
    set (U := arrange (nodup Nat.eq_dec (free_vars f4))).
    assert (HU : forall x, In x U <-> In x (free_vars f4)) by (intros x; unfold U; rewrite HA; apply nodup_In).
    assert (PF : forall x, In x (free_vars f4) -> is_fresh x = false).
    { clear - OK4. induction f4 as [p l r|t|a IH|o a IHa b IHb|q y a IH]; cbn [free_vars form_ok] in *; intros x Hx.
      - destruct OK4 as [_ [_ [_ [A B]]]]. apply in_app_or in Hx. destruct Hx; auto.
      - destruct OK4 as [_ [_ A]]. auto.
      - auto.
      - destruct OK4 as [A B]. apply in_app_or in Hx. destruct Hx; auto.
      - apply filter_In in Hx. apply IH; tauto. }
    unfold skolemize. fold U.
    destruct (skolem_good f4 E n (fun _ => None) U HE (conj N0 ND)) as [f5 [E5 [n5 [-> [G5 [U5 [OK5 [SY5 [ND5 [BV5 [FV5 [SO5 CO5]]]]]]]]]]]].
    { constructor; auto; [rewrite SY4; auto| |intros z t Hz; discriminate|intros z Hz; right; apply HU; auto|intros x Hx; apply PF, HU; auto].
      intros x Hx. split; auto. intros I. apply HU in I. destruct (FV4' x I) as [O _]. exact (isnew_old E c c1 x x (BV4 x Hx) O eq_refl). }
    pose proof (gr_ok _ _ _ _ G5 HE N0) as HE5. pose proof (gr_le _ _ _ _ G5) as L5.
    destruct (shift_good E5 f5 U5 OK5 ND5) as [P6 [N6 [OK6 [SY6 SEM6]]]].
    { intros x Hb Hf. apply FV5, HU in Hf. apply BV5 in Hb. destruct (FV4' x Hf) as [O _]. exact (isnew_old E c c1 x x (BV4 x Hb) O eq_refl). }
    set (f6 := shift_quantors f5) in *. set (f7 := if unroll then expand E5 f6 else f6).
    assert (X7 : better E5 f6 f7 /\ basic f7 /\ prenex f7).
    { unfold f7. destruct (expand_good E5 f6) as [X [_ Y]]. destruct unroll; [split; [apply expand_better; auto|]; split; auto; apply X, nnf_basic; auto|]. split; [apply better_refl|]. split; auto. apply nnf_basic; auto. }
    destruct X7 as [B7 [BA7 P7]]. destruct (nnf_total f7 BA7) as [f8 [E8 N8]]. rewrite E8. assert (P8 : prenex f8) by (eapply nnf_prenex; eauto). apply (nnf_better E5 HE5) in E8.
    destruct (distribute_good f8 N8 P8) as [f9 [E9 C9]]. rewrite E9. apply (dist_better E5) in E9.
    pose proof (better_trans E5 _ _ _ B7 (better_trans E5 _ _ _ E8 E9)) as B69.
    exists f9, (mkst E5 n5 c1). split; auto.
    assert (VE : forall y, vsort (srt E5) y = vsort (srt E) y) by apply (gr_vsort _ _ _ _ G5).
    (* the formula and its renamed simplified form *)
    assert (PRE : forall M v, model_ok (srt E) (dist E) M -> respects (srt E) M v -> (sem (srt E) M v f4 <-> sem (srt E) M v f)).
    { intros M v HM Hv. rewrite SEM4. rewrite <- (bt_sem _ _ _ B13 OK M v HM Hv). apply sem_ext. intros z _. reflexivity. }
    assert (POST : forall M v, model_ok (srt E5) (dist E5) M -> respects (srt E5) M v -> (sem (srt E5) M v f9 <-> sem (srt E5) M v f5)).
    { intros M v HM Hv. rewrite (bt_sem _ _ _ B69 OK6 M v HM Hv). apply SEM6; auto. }
    assert (BK : forall M v, sem (srt E) M (back M (fun _ => None) v) f4 <-> sem (srt E) M v f4) by (intros M v; apply sem_ext; intros z _; reflexivity).
    constructor; cbn [c_env c_next c_vars]; auto.
    - apply (bt_ok _ _ _ B69 OK6).
    - intros s Hs. destruct (bt_syms _ _ _ B69 s Hs) as [H|[->| ->]]; [rewrite SY6 in H; auto|unfold true_code; lia|unfold false_code; lia].
    - intros M HM X v Hv. assert (Hv5 : respects (srt E5) M v) by (intros y; rewrite VE; apply Hv). specialize (X v Hv5). apply (POST M v HM Hv5) in X.
      apply (sem_sorts (srt E5) (srt E) M f5 VE) in X. assert (X4 : sem (srt E) M v f4).
      { apply BK. apply (SO5 M); auto. intros g ds _. apply (mo_fun _ _ _ HM). }
      (* equivalence with the input is known for interpretations of the old signature *)
      destruct (restrict E n E5 n5 M G5 (conj N0 ND) HM) as [F [AF MF]].
      destruct M as [D FM so]. cbn [dom isort ifun] in *.
      assert (SY4' : forall s, In s (form_syms f4) -> s < n) by (rewrite SY4; auto).
      apply (agree_sem D so (srt E) n FM F f AF N0 SY). apply (PRE (mk D so F) v MF Hv).
      apply (agree_sem D so (srt E) n FM F f4 AF N0 SY4'). exact X4.
    - intros D so F HM X. destruct (CO5 D so F HM) as [F' [A5 [M5 C5]]]. exists F'. split; auto. split; auto. intros v Hv5.
      assert (Hv : respects (srt E) (mk D so F) v) by (intros y; rewrite <- VE; apply Hv5).
      apply (POST (mk D so F') v M5 Hv5). apply (sem_sorts (srt E5) (srt E) (mk D so F') f5 VE). apply C5; auto. apply BK. apply (PRE (mk D so F) v HM Hv). apply X; auto.
  Qed.

  Record out_ok (st st' : cstate) (fs : list form) (cs : list clause) : Prop := {
    ou_grows : grows (c_env st) (c_next st) (c_env st') (c_next st');
    ou_vars : forall s, c_vars st s <= c_vars st' s;
    ou_ok : Forall (clause_ok (c_env st')) cs;
    ou_below : Forall (below (c_next st')) cs;
    ou_sound : forall M, model_ok (srt (c_env st')) (dist (c_env st')) M -> satisfied (c_env st') M cs -> forall f, In f fs -> form_true (srt (c_env st)) M f;
    ou_complete : forall D so F, model_ok (srt (c_env st)) (dist (c_env st)) (mk D so F) -> (forall f, In f fs -> form_true (srt (c_env st)) (mk D so F) f) ->
      exists F', agree D (c_next st) F F' /\ model_ok (srt (c_env st')) (dist (c_env st')) (mk D so F') /\ satisfied (c_env st') (mk D so F') cs }.

  Lemma clausify_total st f : env_ok (c_env st) -> next_ok (c_env st) (c_next st) -> input_ok st f ->
    exists cs st' N, forall fuel, N <= fuel -> clausify fuel arrange mlimit unroll st f = Some (cs, st').
  Proof.
    intros HE HN IN. destruct (conjunctive_good st f HE HN IN) as [g [st' [H C]]]. pose proof (gr_ok _ _ _ _ (cv_grows _ _ _ _ C) HE (proj1 HN)) as HE'.
    destruct (to_cnf_total (c_env st') HE' g) as [cs [N K]]. exists cs, st', N. intros fuel L. unfold clausify. rewrite H, K by auto. reflexivity.
  Qed.
  Lemma clausify_correct fuel st f cs st' : env_ok (c_env st) -> next_ok (c_env st) (c_next st) -> input_ok st f ->
    clausify fuel arrange mlimit unroll st f = Some (cs, st') -> out_ok st st' [f] cs.
  Proof.
    intros HE HN IN H. destruct (conjunctive_good st f HE HN IN) as [g [st1 [H1 C]]]. unfold clausify in H. rewrite H1 in H.
    destruct (to_cnf fuel (c_env st1) g) as [cs'|] eqn:K; [|discriminate]. injection H as <- <-. destruct C as [C1 C2 C3 C4 C5 C6 C7].
    pose proof (gr_ok _ _ _ _ C1 HE (proj1 HN)) as HE'. pose proof (grows_next _ _ _ _ C1 HN) as HN'.
    destruct (to_cnf_correct (c_env st1) HE' fuel g cs' (c_next st1) C3 C4 K (proj1 HN') C5) as [A [B D]]. constructor; auto.
    - intros M HM X f' [<-|[]]. apply C6; auto. apply D; auto.
    - intros Dm so F HM X. destruct (C7 Dm so F HM (X f (or_introl eq_refl))) as [F' [P [Q R]]]. exists F'. split; auto. split; auto. apply D; auto.
  Qed.

  Lemma input_mono st st' f : grows (c_env st) (c_next st) (c_env st') (c_next st') -> (forall s, c_vars st s <= c_vars st' s) -> env_ok (c_env st) -> next_ok (c_env st) (c_next st) ->
    input_ok st f -> input_ok st' f.
  Proof.
    intros G L HE HN [OK [OV SY]]. split; [eapply grows_form; eauto; apply HN|]. pose proof (gr_le _ _ _ _ G). split.
    - intros x Hx k Hk. rewrite (gr_vsort _ _ _ _ G), (gr_fresh _ _ _ _ G) in *. apply (OV x Hx). specialize (L (vsort (srt (c_env st)) x)). lia.
    - intros s Hs. specialize (SY s Hs). lia.
  Qed.
  Lemma below_mono n n' c : n <= n' -> below n c -> below n' c.
  Proof. intros L H e f He Hf. specialize (H e f He Hf). lia. Qed.
  Lemma grows_clause E n E' n' c : grows E n E' n' -> below n c -> clause_ok E c -> clause_ok E' c.
  Proof.
    unfold clause_ok. rewrite !Forall_forall. intros G B H e He. destruct (H e He) as [A1 [A2 [A3 A4]]].
    destruct (grows_wf E n E' n' (lt e) G) as [X1 X2]; [intros f Hf; apply (B e f He), in_or_app; auto|]. destruct (grows_wf E n E' n' (rt e) G) as [Y1 Y2]; [intros f Hf; apply (B e f He), in_or_app; auto|].
    unfold eqn_ok. rewrite X1, Y1, X2, Y2. auto.
  Qed.
  Lemma clause_true_sorts S S' M c : (forall x, vsort S x = vsort S' x) -> clause_true S M c -> clause_true S' M c.
  Proof. intros H X v Hv. apply X. intros y. rewrite H. apply Hv. Qed.

  Lemma all_total : forall fs st, env_ok (c_env st) -> next_ok (c_env st) (c_next st) -> Forall (input_ok st) fs ->
    exists cs st' N, forall fuel, N <= fuel -> clausify_all fuel arrange mlimit unroll st fs = Some (cs, st').
  Proof.
    induction fs as [|f fs IH]; intros st HE HN IN; [exists [], st, 0; auto|]. inversion IN as [|f0 l0 IN1 IN2 E0]; subst f0 l0.
    destruct (clausify_total st f HE HN IN1) as [cs1 [st1 [N1 H1]]]. pose proof (clausify_correct N1 st f cs1 st1 HE HN IN1 (H1 N1 (le_n _))) as O1.
    destruct (IH st1) as [cs2 [st2 [N2 H2]]].
    - apply (gr_ok _ _ _ _ (ou_grows _ _ _ _ O1) HE (proj1 HN)).
    - apply (grows_next _ _ _ _ (ou_grows _ _ _ _ O1) HN).
    - rewrite Forall_forall in *. intros g Hg. apply (input_mono st st1 g); auto; apply O1.
    - exists (cs1 ++ cs2), st2, (N1 + N2). intros fuel L. cbn [clausify_all]. rewrite H1, H2 by lia. reflexivity.
  Qed.
  Lemma all_correct fuel : forall fs st cs st', env_ok (c_env st) -> next_ok (c_env st) (c_next st) -> Forall (input_ok st) fs ->
    clausify_all fuel arrange mlimit unroll st fs = Some (cs, st') -> out_ok st st' fs cs.
  Proof.
    induction fs as [|f fs IH]; intros st cs st' HE HN IN H; cbn [clausify_all] in H.
    - injection H as <- <-. constructor; auto; [apply grows_refl|intros M HM X f []|]. intros D so F HM _. exists F. split; [intros g ds Hg; auto|]. split; auto. intros c [].
    - inversion IN as [|f0 l0 IN1 IN2 E0]; subst f0 l0. destruct (clausify fuel arrange mlimit unroll st f) as [[cs1 st1]|] eqn:H1; [|discriminate].
      destruct (clausify_all fuel arrange mlimit unroll st1 fs) as [[cs2 st2]|] eqn:H2; [|discriminate]. injection H as <- <-.
      pose proof (clausify_correct fuel st f cs1 st1 HE HN IN1 H1) as [A1 A2 A3 A4 A5 A6].
      assert (HE1 : env_ok (c_env st1)) by apply (gr_ok _ _ _ _ A1 HE (proj1 HN)). assert (HN1 : next_ok (c_env st1) (c_next st1)) by apply (grows_next _ _ _ _ A1 HN).
      assert (IN' : Forall (input_ok st1) fs) by (rewrite Forall_forall in *; intros g Hg; apply (input_mono st st1 g); auto).
      pose proof (IH st1 cs2 st2 HE1 HN1 IN' H2) as [B1 B2 B3 B4 B5 B6].
      pose proof (gr_le _ _ _ _ B1) as L1. rewrite Forall_forall in A3, A4, B3, B4, IN2.
      assert (VE1 : forall y, vsort (srt (c_env st1)) y = vsort (srt (c_env st)) y) by apply (gr_vsort _ _ _ _ A1).
      assert (VE2 : forall y, vsort (srt (c_env st2)) y = vsort (srt (c_env st1)) y) by apply (gr_vsort _ _ _ _ B1).
      constructor.
      + eapply grows_trans; eauto.
      + intros s. specialize (A2 s). specialize (B2 s). lia.
      + apply Forall_forall. intros c Hc. apply in_app_or in Hc. destruct Hc as [Hc|Hc]; auto. eapply grows_clause; eauto.
      + apply Forall_forall. intros c Hc. apply in_app_or in Hc. destruct Hc as [Hc|Hc]; auto. apply (below_mono (c_next st1)); auto.
      + intros M HM X f' [<-|Hf].
        * (* the clauses of the first formula, in an interpretation of the signature after it *)
          destruct (restrict _ _ _ _ M B1 HN1 HM) as [F [AF MF]]. destruct M as [D FM so]. cbn [dom isort ifun] in *.
          assert (Y : form_true (srt (c_env st)) (mk D so F) f).
          { apply A5; [exact MF| |left; auto]. intros c Hc. apply (agree_true (c_env st1) D so (c_next st1) FM F c AF (A4 c Hc)).
            apply (clause_true_sorts (srt (c_env st2))); auto. apply X, in_or_app; auto. }
          intros v Hv. specialize (Y v Hv).
          destruct IN1 as [_ [_ SY]]. destruct HN as [N0 _].
          apply (agree_sem D so (srt (c_env st)) (c_next st) FM F f); auto. apply (agree_le _ _ (c_next st1)); auto. apply (gr_le _ _ _ _ A1).
        * assert (Y : form_true (srt (c_env st1)) M f') by (apply B5; auto; intros c Hc; apply X, in_or_app; auto).
          intros v Hv. apply (sem_sorts (srt (c_env st1)) (srt (c_env st)) M f' VE1). apply Y. intros y. rewrite VE1. apply Hv.
      + intros D so F HM X. destruct (A6 D so F HM) as [F1 [P1 [Q1 R1]]]; [intros f' [<-|[]]; apply X; left; auto|].
        destruct (B6 D so F1 Q1) as [F2 [P2 [Q2 R2]]].
        * intros f' Hf v Hv. destruct (IN2 f' Hf) as [_ [_ SY]]. destruct HN as [N0 _]. apply (sem_sorts (srt (c_env st1)) (srt (c_env st)) (mk D so F1) f' VE1).
          apply (agree_sem D so (srt (c_env st)) (c_next st) F F1 f' P1 N0 SY). apply X; [right; auto|]. intros y. rewrite <- VE1. apply Hv.
        * exists F2. split; [apply (agree_trans _ _ F F1 F2 P1), (agree_le _ _ (c_next st1)); auto; apply (gr_le _ _ _ _ A1)|]. split; auto.
          intros c Hc. apply in_app_or in Hc. destruct Hc as [Hc|Hc]; auto. apply (clause_true_sorts (srt (c_env st1))); [auto|].
          apply (agree_true (c_env st1) D so (c_next st1) F1 F2 c P2 (A4 c Hc)). apply R1; auto.
  Qed.
End Main.
