(** * Proofs about the replacement of injectivity axioms *)
From Coq Require Import ClassicalEpsilon.
From Verif Require Import Terms Unify Semantics Clauses ClausesProofs Subsume Split SplitSemProofs Unfold UnfoldProofs Inj.
Local Open Scope nat_scope.

(** ** What the scan guarantees *)

Lemma scan_spec : forall ls rs op chk sv, length ls = length rs -> inj_scan ls rs op chk = Some sv ->
  let ps := combine ls rs in
  (forall p, In p ps -> fst p <> snd p -> ~ In (fst p) chk /\ ~ In (snd p) chk /\ ~ In (fst p) op /\ ~ In (snd p) op)
  /\ (forall p q, In p ps -> In q ps -> fst p <> snd p -> fst q <> snd q -> (fst p = fst q -> p = q) /\ (snd p = snd q -> p = q) /\ fst p <> snd q)
  /\ (forall p q, In p ps -> In q ps -> fst p <> snd p -> fst q = snd q -> fst q <> fst p /\ fst q <> snd p)
  /\ (forall q, In q ps -> fst q = snd q -> In (fst q) (op ++ sv) /\ ~ In (fst q) chk)
  /\ (forall z, In z sv -> In (z, z) ps).
Proof.
  induction ls as [|x ls IH]; intros [|y rs] op chk sv L; try discriminate; cbn [inj_scan combine].
  - intros [= <-]. cbn. repeat split; intros; tauto.
  - injection L as L. destruct (Nat.eqb x y) eqn:Q.
    + apply Nat.eqb_eq in Q. subst y. destruct (mem x chk) eqn:C; [discriminate|].
      assert (NC : ~ In x chk) by (intros X; apply mem_in in X; congruence).
      destruct (mem x op) eqn:O.
      * intros H. apply mem_in in O. destruct (IH rs op chk sv L H) as (A & B & D & F & G). cbn.
        split; [|split; [|split; [|split]]].
        -- intros p [<-|Hp] N; [cbn in N; tauto|apply A; auto].
        -- intros p q [<-|Hp] [<-|Hq] N1 N2; cbn in *; try tauto. apply B; auto.
        -- intros p q [<-|Hp] [<-|Hq] N1 N2; cbn in *; try tauto.
           ++ destruct (A p Hp N1) as (_ & _ & X1 & X2). split; intros X; subst; tauto.
           ++ apply D; auto.
        -- intros q [<-|Hq] N1; cbn in *; auto. split; auto. apply in_app_iff. auto.
        -- intros z Hz. right. auto.
      * destruct (inj_scan ls rs (x :: op) chk) as [sv'|] eqn:H; [|discriminate]. cbn [option_map]. intros [= <-].
        destruct (IH rs (x :: op) chk sv' L H) as (A & B & D & F & G). cbn.
        split; [|split; [|split; [|split]]].
        -- intros p [<-|Hp] N; [cbn in N; tauto|]. destruct (A p Hp N) as (X1 & X2 & X3 & X4). cbn in X3, X4. tauto.
        -- intros p q [<-|Hp] [<-|Hq] N1 N2; cbn in *; try tauto. apply B; auto.
        -- intros p q [<-|Hp] [<-|Hq] N1 N2; cbn in *; try tauto.
           ++ destruct (A p Hp N1) as (_ & _ & X1 & X2). cbn in X1, X2. split; intros X; subst; tauto.
           ++ apply D; auto.
        -- intros q [<-|Hq] N1; cbn in *.
           ++ split; auto. apply in_app_iff. right. left. reflexivity.
           ++ destruct (F q Hq N1) as [X1 X2]. split; auto. cbn in X1. rewrite in_app_iff in *. cbn. tauto.
        -- intros z [<-|Hz]; auto.
    + apply Nat.eqb_neq in Q. destruct (mem x chk || mem x op || mem y chk || mem y op) eqn:C; [discriminate|].
      rewrite !orb_false_iff in C. destruct C as [[[C1 C2] C3] C4].
      assert (X : forall z l, mem z l = false -> ~ In z l) by (intros z l E0 E1; apply mem_in in E1; congruence).
      apply X in C1, C2, C3, C4. clear X. intros H. destruct (IH rs op (x :: y :: chk) sv L H) as (A & B & D & F & G). cbn.
      split; [|split; [|split; [|split]]].
      * intros p [<-|Hp] N; [cbn; tauto|]. destruct (A p Hp N) as (X1 & X2 & X3 & X4). cbn in X1, X2. tauto.
      * intros p q [<-|Hp] [<-|Hq] N1 N2; cbn in *.
        -- auto.
        -- destruct (A q Hq N2) as (X1 & X2 & _). cbn in X1, X2. split; [intros ->; tauto|]. split; [intros ->; tauto|]. intros ->. tauto.
        -- destruct (A p Hp N1) as (X1 & X2 & _). cbn in X1, X2. split; [intros X; rewrite X in *; tauto|]. split; [intros X; rewrite X in *; tauto|]. intros X. rewrite X in *. tauto.
        -- apply B; auto.
      * intros p q [<-|Hp] [<-|Hq] N1 N2; cbn in *; try tauto.
        -- destruct (F q Hq N2) as [_ X]. cbn in X. split; intros Y; rewrite Y in *; tauto.
        -- apply D; auto.
      * intros q [<-|Hq] N1; cbn in *; [tauto|]. destruct (F q Hq N1) as [X1 X2]. split; auto.
      * intros z Hz. auto.
Qed.

Lemma index_spec x y : forall ls rs i, length ls = length rs -> inj_index x y ls rs = Some i ->
  i < length ls /\ In (nth i ls 0, nth i rs 0) (combine ls rs)
  /\ (nth i ls 0 = x /\ nth i rs 0 = y \/ nth i ls 0 = y /\ nth i rs 0 = x).
Proof.
  induction ls as [|a ls IH]; intros [|b rs] i L; try discriminate; cbn [inj_index combine].
  destruct (Nat.eqb a x && Nat.eqb b y || Nat.eqb a y && Nat.eqb b x) eqn:Q.
  - intros [= <-]. cbn. split; [lia|]. split; auto. rewrite orb_true_iff, !andb_true_iff, !Nat.eqb_eq in Q. exact Q.
  - injection L as L. destruct (inj_index x y ls rs) as [j|] eqn:H; [|discriminate]. cbn. intros [= <-].
    destruct (IH rs j L H) as [A [B C]]. split; [lia|]. split; auto.
Qed.

(** ** Changing a valuation at the keys of a list of pairs *)
Definition remap {D : Type} (ps : list (var * var)) (g v : var -> D) (z : var) : D :=
  match find (fun p => Nat.eqb (fst p) z && negb (Nat.eqb (fst p) (snd p))) ps with Some p => g (snd p) | None => v z end.
Lemma remap_key {D} ps (g v : var -> D) p : (forall q, In q ps -> fst q <> snd q -> fst q = fst p -> q = p) -> In p ps -> fst p <> snd p ->
  remap ps g v (fst p) = g (snd p).
Proof.
  intros U Hp N. unfold remap. match goal with |- context [find ?h ps] => destruct (find h ps) as [q|] eqn:F end.
  - apply List.find_some in F. destruct F as [F1 F2]. rewrite andb_true_iff, negb_true_iff, Nat.eqb_eq, Nat.eqb_neq in F2. destruct F2 as [F2 F3].
    rewrite (U q F1 F3 F2). reflexivity.
  - exfalso. pose proof (find_none _ _ F p Hp) as X. cbn in X. rewrite Nat.eqb_refl in X. cbn in X. rewrite negb_false_iff, Nat.eqb_eq in X. tauto.
Qed.
Lemma remap_other {D} ps (g v : var -> D) z : (forall q, In q ps -> fst q <> snd q -> fst q <> z) -> remap ps g v z = v z.
Proof.
  intros U. unfold remap. match goal with |- context [find ?h ps] => destruct (find h ps) as [q|] eqn:F end; auto. apply List.find_some in F. destruct F as [F1 F2].
  rewrite andb_true_iff, negb_true_iff, Nat.eqb_eq, Nat.eqb_neq in F2. destruct F2 as [F2 F3]. exfalso. exact (U q F1 F3 F2).
Qed.
Lemma remap_respects S M ps g v : (forall p, In p ps -> vsort S (fst p) = vsort S (snd p)) -> respects S M g -> respects S M v -> respects S M (remap ps g v).
Proof.
  intros HS Hg Hv z. unfold remap. match goal with |- context [find ?h ps] => destruct (find h ps) as [q|] eqn:F end; [|apply Hv]. apply List.find_some in F. destruct F as [F1 F2].
  rewrite andb_true_iff, Nat.eqb_eq in F2. destruct F2 as [F2 _]. rewrite <- F2. exact (eq_ind_r (fun s => isort M s (g (snd q))) (Hg (snd q)) (HS q F1)).
Qed.
Lemma combine_swap {A B} : forall (l : list A) (r : list B) a b, In (a, b) (combine l r) -> In (b, a) (combine r l).
Proof. induction l as [|x l IH]; intros [|y r] a b; cbn; auto. intros [H|H]; [injection H as -> ->; auto|auto]. Qed.
Lemma map_pairs {D} (h k : var -> D) : forall ls rs, length ls = length rs -> (forall p, In p (combine ls rs) -> h (fst p) = k (snd p)) -> map h ls = map k rs.
Proof.
  induction ls as [|x ls IH]; intros [|y rs] L H; try discriminate; cbn; auto. f_equal; [apply (H (x, y)); left; reflexivity|].
  apply IH; auto. intros p Hp. apply H. right. exact Hp.
Qed.
Lemma in_combine_fst {A B} : forall (l : list A) (r : list B) a, length l = length r -> In a l -> exists b, In (a, b) (combine l r).
Proof. induction l as [|x l IH]; intros [|y r] a L H; try discriminate; [destruct H|]. destruct H as [<-|H]; [exists y; left; auto|]. injection L as L. destruct (IH r a L H) as [b Hb]. exists b. right. auto. Qed.

(** ** One replacement *)
Section One.
  Variable E : env.
  Hypothesis HE : env_ok E.
  Notation S := (srt E).
  Variables (x y : var) (f n : sym) (lv rv sv : list var) (i : nat) (p q : eqn).
  Hypothesis LEN : length lv = length rv.
  Hypothesis SCAN : inj_scan lv rv [] [] = Some sv.
  Hypothesis IDX : inj_index x y lv rv = Some i.
  Hypothesis Pp : pos p = true.
  Hypothesis Pq : pos q = false.
  Hypothesis SHp : lt p = Var x /\ rt p = Var y.
  Hypothesis SHq : lt q = Fun f (map Var lv) /\ rt q = Fun f (map Var rv).
  Hypothesis OKp : eqn_ok E p.
  Hypothesis OKq : eqn_ok E q.
  Hypothesis XY : x <> y.
  Let xi := nth i lv 0.
  Let nterm := Fun n (map Var sv ++ [Fun f (map Var lv)]).
  Let new := eqn_alloc E nterm (Var xi) true.
  Let dc := mkdecl n (map (vsort S) sv ++ [fres S f]) (vsort S x).
  Hypothesis DC : decl_in E dc.

  Lemma sorts_lr : map (vsort S) lv = fargs S f /\ map (vsort S) rv = fargs S f.
  Proof.
    destruct OKq as (W1 & W2 & _). destruct SHq as [A B]. rewrite A in W1. rewrite B in W2. apply wf_fun in W1, W2.
    destruct W1 as [_ W1], W2 as [_ W2]. rewrite map_map in W1, W2. auto.
  Qed.
  Lemma pair_sorts pr : In pr (combine lv rv) -> vsort S (fst pr) = vsort S (snd pr).
  Proof.
    destruct sorts_lr as [A B]. assert (X : map (vsort S) lv = map (vsort S) rv) by congruence. clear -X LEN. revert rv LEN X.
    induction lv as [|a l IH]; intros [|b r] L X; try discriminate; cbn; [intros []|]. injection X as X1 X2. injection L as L.
    intros [<-|H]; [exact X1|]. apply (IH r); auto.
  Qed.
  Lemma idx_facts : In (xi, nth i rv 0) (combine lv rv) /\ (xi = x /\ nth i rv 0 = y \/ xi = y /\ nth i rv 0 = x).
  Proof. destruct (index_spec x y lv rv i LEN IDX) as [_ [A B]]. auto. Qed.
  Lemma xi_sort : vsort S xi = vsort S x.
  Proof.
    destruct OKp as (_ & _ & T & _). destruct SHp as [A B]. rewrite A, B in T. cbn in T. destruct idx_facts as [_ [[-> _]|[-> _]]]; auto.
  Qed.
  Lemma sv_in : incl sv lv.
  Proof.
    destruct (scan_spec lv rv [] [] sv LEN SCAN) as (_ & _ & _ & _ & G). intros z Hz. apply G in Hz. apply in_combine_l in Hz. exact Hz.
  Qed.
  Lemma xi_in : In xi lv.
  Proof. destruct idx_facts as [A _]. apply in_combine_l in A. exact A. Qed.
  Lemma lv_primary z : In z lv -> is_fresh z = false.
  Proof. destruct OKq as (_ & _ & _ & P & _). destruct SHq as [A _]. intros Hz. apply P. rewrite A, vars_map_var. exact Hz. Qed.
  Lemma nterm_ok : wf S nterm /\ tsort S nterm = tsort S (Var xi).
  Proof.
    destruct DC as [D1 D2]. cbn in D1, D2. destruct OKq as (W1 & _). destruct SHq as [A _]. rewrite A in W1. split.
    - apply wf_fun. split.
      + apply Forall_app. split; [|constructor; auto]. rewrite Forall_map. apply Forall_forall. reflexivity.
      + rewrite map_app, map_map. cbn. rewrite D1. reflexivity.
    - cbn. rewrite D2. symmetry. apply xi_sort.
  Qed.
  Lemma new_eqn_ok : eqn_ok E new.
  Proof.
    destruct nterm_ok as [A B]. apply eqn_alloc_ok; auto; [reflexivity| |].
    - intros z Hz. unfold nterm in Hz. cbn [vars] in Hz. rewrite flat_map_app in Hz. cbn [flat_map] in Hz. rewrite !in_app_iff in Hz.
      apply lv_primary. destruct Hz as [Hz|[Hz|[]]].
      + apply in_flat_map in Hz. destruct Hz as [t [H1 H2]]. apply in_map_iff in H1. destruct H1 as [w [<- H1]]. destruct H2 as [<-|[]]. apply sv_in. exact H1.
      + rewrite vars_map_var in Hz. exact Hz.
    - intros z [<-|[]]. apply lv_primary, xi_in.
  Qed.
  Lemma new_syms h : In h (lit_syms new) -> h = n \/ h = f.
  Proof.
    unfold new, eqn_alloc. unfold nterm. assert (X : forall t, term_eqb (Fun n (map Var sv ++ [Fun f (map Var lv)])) (Fun t []) = false).
    { intros t. destruct (term_eqb_spec (Fun n (map Var sv ++ [Fun f (map Var lv)])) (Fun t [])) as [Q|]; auto. injection Q as _ Q.
      apply app_eq_nil in Q. destruct Q; discriminate. }
    unfold tfalse, ttrue. rewrite !X. cbn [fst snd]. rewrite ?X. unfold lit_syms. cbn. rewrite flat_map_app, !in_app_iff. cbn.
    assert (Y : forall l, flat_map tsyms (map Var l) = []) by (induction l; auto). rewrite !Y. cbn. intuition.
  Qed.
  Lemma new_holds M v : model_ok S (dist E) M -> respects S M v ->
    (holds M v new <-> ifun M n (map v sv ++ [ifun M f (map v lv)]) = v xi).
  Proof.
    intros HM Hv. destruct nterm_ok as [A B]. unfold new. rewrite (eqn_alloc_holds E M HE HM v nterm (Var xi) true Hv A eq_refl B).
    unfold lit_holds, nterm. cbn [eval]. rewrite map_app, !map_map. cbn [map eval]. rewrite !map_map. reflexivity.
  Qed.
  Lemma old_holds M v : Exists (holds M v) [p; q] <-> (v x = v y \/ ifun M f (map v lv) <> ifun M f (map v rv)).
  Proof.
    assert (A : holds M v p <-> v x = v y). { unfold holds, lit_holds. destruct SHp as [-> ->]. rewrite Pp. reflexivity. }
    assert (B : holds M v q <-> ifun M f (map v lv) <> ifun M f (map v rv)).
    { unfold holds, lit_holds. destruct SHq as [-> ->]. rewrite Pq. cbn [eval]. rewrite !map_map. reflexivity. }
    rewrite !Exists_cons, Exists_nil. tauto.
  Qed.

  (** the new equation implies the old clause *)
  Lemma new_to_old M : model_ok S (dist E) M -> clause_true S M [new] -> clause_true S M [p; q].
  Proof.
    intros HM HN v Hv. apply old_holds.
    destruct (mo_dec _ _ _ HM (ifun M f (map v lv)) (ifun M f (map v rv))) as [EQ|NE]; [left|right; exact NE].
    destruct (scan_spec lv rv [] [] sv LEN SCAN) as (_ & B & D & F & G).
    set (w := remap (combine lv rv) v v).
    assert (Hw : respects S M w) by (apply remap_respects; auto; intros pr; apply pair_sorts).
    assert (W1 : map w lv = map v rv).
    { apply map_pairs; auto. intros pr Hpr. unfold w. destruct (Nat.eq_dec (fst pr) (snd pr)) as [Q|Q].
      - rewrite remap_other; [rewrite Q; reflexivity|]. intros q' Hq' Nq' X. destruct (D q' pr Hq' Hpr Nq' Q) as [Y _]. congruence.
      - apply remap_key; auto. intros q' Hq' Nq' X. exact (proj1 (B q' pr Hq' Hpr Nq' Q) X). }
    assert (W2 : map w sv = map v sv).
    { apply map_ext_in. intros z Hz. unfold w. apply remap_other. intros q' Hq' Nq' X. destruct (D q' (z, z) Hq' (G z Hz) Nq' eq_refl) as [Y _]. cbn in Y. congruence. }
    assert (Z1 := HN v Hv). assert (Z2 := HN w Hw). rewrite Exists_cons, Exists_nil in Z1, Z2. destruct Z1 as [Z1|[]], Z2 as [Z2|[]].
    apply new_holds in Z1; auto. apply new_holds in Z2; auto. rewrite W1, W2, <- EQ in Z2.
    destruct idx_facts as [I1 I2].
    assert (W3 : w xi = v (nth i rv 0)).
    { unfold w. apply (remap_key (combine lv rv) v v (xi, nth i rv 0)); auto.
      - intros q' Hq' Nq' X. destruct (Nat.eq_dec xi (nth i rv 0)) as [Q|Q].
        + exfalso. destruct I2 as [[J1 J2]|[J1 J2]]; apply XY; congruence.
        + exact (proj1 (B q' (xi, nth i rv 0) Hq' I1 Nq' Q) X).
      - cbn. destruct I2 as [[J1 J2]|[J1 J2]]; congruence. }
    assert (v xi = v (nth i rv 0)) by congruence. destruct I2 as [[J1 J2]|[J1 J2]]; congruence.
  Qed.

  (** the old clause makes the value of [xi] a function of the others *)
  Lemma old_unique M v w : clause_true S M [p; q] -> respects S M v -> respects S M w ->
    map v sv = map w sv -> ifun M f (map v lv) = ifun M f (map w lv) -> v xi = w xi.
  Proof.
    intros HO Hv Hw ES EF. destruct (scan_spec lv rv [] [] sv LEN SCAN) as (_ & B & D & F & G).
    set (ps := combine rv lv). set (u := remap ps w v).
    assert (PS : forall a b, In (a, b) ps <-> In (b, a) (combine lv rv)).
    { intros a b. split; intros H; apply combine_swap in H; exact H. }
    assert (Hu : respects S M u).
    { apply remap_respects; auto. intros [a b] H. apply PS, pair_sorts in H. cbn in *. congruence. }
    assert (U1 : map u rv = map w lv).
    { apply map_pairs; auto. intros [a b] H. apply PS in H. cbn. unfold u. destruct (Nat.eq_dec a b) as [Q|Q].
      - subst b. rewrite remap_other.
        + destruct (F (a, a) H eq_refl) as [Fa _]. cbn in Fa.
          assert (X : forall l, In a l -> map v l = map w l -> v a = w a).
          { induction l as [|z l IHl]; [intros []|]. intros [<-|HI] X; injection X as X1 X2; auto. }
          apply (X sv); auto.
        + intros [c d] Hq Nq X. apply PS in Hq. cbn in *. destruct (D (d, c) (a, a) Hq H) as [_ Y]; cbn; auto.
      - apply (remap_key ps w v (a, b)); auto; [|apply PS; exact H]. intros [c d] Hq Nq X. apply PS in Hq. cbn in *.
        destruct (B (d, c) (b, a) Hq H) as [_ [Y _]]; cbn; auto. specialize (Y X). congruence. }
    assert (U2 : map u lv = map v lv).
    { apply map_ext_in. intros z Hz. unfold u. apply remap_other. intros [c d] Hq Nq X. apply PS in Hq. cbn in *.
      destruct (in_combine_fst lv rv z LEN Hz) as [b Hb]. destruct (Nat.eq_dec z b) as [Q|Q].
      - subst b. destruct (D (d, c) (z, z) Hq Hb) as [_ Y]; cbn; auto.
      - destruct (B (z, b) (d, c) Hb Hq) as [_ [_ Y]]; cbn in *; auto. }
    assert (HH := HO u Hu). apply old_holds in HH. rewrite U1, U2 in HH. destruct HH as [HH|HH]; [|congruence].
    destruct idx_facts as [I1 I2].
    assert (X1 : u xi = v xi).
    { assert (X : forall l, In xi l -> map u l = map v l -> u xi = v xi).
      { induction l as [|z l IHl]; [intros []|]. intros [<-|HI] X; injection X as X1 X2; auto. }
      apply (X lv xi_in U2). }
    assert (X2 : u (nth i rv 0) = w xi).
    { unfold u. apply (remap_key ps w v (nth i rv 0, xi)); auto.
      - intros [c d] Hq Nq X. apply PS in Hq. cbn in *. destruct (B (d, c) (xi, nth i rv 0) Hq I1) as [_ [Y _]]; cbn; auto.
        + destruct I2 as [[J1 J2]|[J1 J2]]; congruence.
        + specialize (Y X). congruence.
      - apply PS. exact I1.
      - cbn. destruct I2 as [[J1 J2]|[J1 J2]]; congruence. }
    destruct I2 as [[J1 J2]|[J1 J2]]; congruence.
  Qed.

  (** the new symbol interpreted *)
  Definition witness (M : structure) (ds : list (dom M)) (v : var -> dom M) : Prop :=
    respects S M v /\ map v sv ++ [ifun M f (map v lv)] = ds.
  Definition inv_fun (M : structure) (def : dom M) (ds : list (dom M)) : dom M :=
    match excluded_middle_informative (exists v, witness M ds v) with
    | left H => proj1_sig (constructive_indefinite_description _ H) xi
    | right _ => def
    end.
  Definition inv_str (M : structure) (def : dom M) : structure :=
    mk (dom M) (isort M) (fun g ds => match ds with [] => ifun M g [] | _ => if Nat.eqb g n then inv_fun M def ds else ifun M g ds end).
  Lemma inv_str_ok M def : model_ok S (dist E) M -> isort M (vsort S x) def -> model_ok S (dist E) (inv_str M def).
  Proof.
    intros HM HD. constructor; cbn.
    - intros g ds H. destruct ds as [|a ds]; [apply (mo_fun _ _ _ HM); exact H|]. destruct (Nat.eqb g n) eqn:Q; [|apply (mo_fun _ _ _ HM); exact H].
      apply Nat.eqb_eq in Q. subst g. destruct DC as [_ D2]. cbn in D2. rewrite D2. unfold inv_fun.
      destruct (excluded_middle_informative _) as [Hx|_]; [|exact HD]. destruct (constructive_indefinite_description _ Hx) as [v [Hv Hv']]. cbn.
      rewrite <- xi_sort. apply Hv.
    - apply (mo_inh _ _ _ HM).
    - apply (mo_bool _ _ _ HM).
    - apply (mo_tf _ _ _ HM).
    - apply (mo_dec _ _ _ HM).
    - intros g h. apply (mo_dist _ _ _ HM).
  Qed.
  Lemma inv_str_n M def ds : ds <> [] -> ifun (inv_str M def) n ds = inv_fun M def ds.
  Proof. intros H. cbn. destruct ds; [tauto|]. rewrite Nat.eqb_refl. reflexivity. Qed.
  Lemma inv_str_other M def g ds : g <> n -> ifun (inv_str M def) g ds = ifun M g ds.
  Proof. intros H. cbn. apply Nat.eqb_neq in H. rewrite H. destruct ds; reflexivity. Qed.
  Lemma inv_str_new M def : f < n -> model_ok S (dist E) M -> isort M (vsort S x) def -> clause_true S M [p; q] -> clause_true S (inv_str M def) [new].
  Proof.
    intros FN HM HD HO v Hv. left. apply (new_holds (inv_str M def) v (inv_str_ok M def HM HD) Hv).
    rewrite inv_str_n by (destruct (map v sv); discriminate). rewrite inv_str_other by lia.
    unfold inv_fun. destruct (excluded_middle_informative _) as [Hx|Hx].
    - destruct (constructive_indefinite_description _ Hx) as [w [Hw EW]]. cbn. apply app_inj_tail in EW. destruct EW as [E1 E2].
      apply (old_unique M w v HO Hw Hv E1 E2).
    - exfalso. apply Hx. exists v. split; auto.
  Qed.
End One.

(** ** The whole set *)

Lemma recognize_some E internal isinj n c repl dc : recognize_injectivity E internal isinj n c = Some (repl, dc) -> clause_ok E c ->
  exists x y f lv rv sv i p q, (c = [p; q] \/ c = [q; p]) /\ length lv = length rv /\ inj_scan lv rv [] [] = Some sv /\ inj_index x y lv rv = Some i
    /\ pos p = true /\ pos q = false /\ (lt p = Var x /\ rt p = Var y) /\ (lt q = Fun f (map Var lv) /\ rt q = Fun f (map Var rv))
    /\ eqn_ok E p /\ eqn_ok E q /\ x <> y
    /\ repl = [eqn_alloc E (Fun n (map Var sv ++ [Fun f (map Var lv)])) (Var (nth i lv 0)) true]
    /\ dc = mkdecl n (map (vsort (srt E)) sv ++ [fres (srt E) f]) (vsort (srt E) x).
Proof.
  assert (K : forall p q, pos p = true -> pos q = false -> eqn_ok E p -> eqn_ok E q -> inj_clause E internal isinj n p q = Some (repl, dc) ->
    exists x y f lv rv sv i, length lv = length rv /\ inj_scan lv rv [] [] = Some sv /\ inj_index x y lv rv = Some i
    /\ (lt p = Var x /\ rt p = Var y) /\ (lt q = Fun f (map Var lv) /\ rt q = Fun f (map Var rv)) /\ x <> y
    /\ repl = [eqn_alloc E (Fun n (map Var sv ++ [Fun f (map Var lv)])) (Var (nth i lv 0)) true]
    /\ dc = mkdecl n (map (vsort (srt E)) sv ++ [fres (srt E) f]) (vsort (srt E) x)).
  { intros p q P1 P2 O1 O2. unfold inj_clause. destruct (equlit p && equlit q); [|discriminate].
    destruct (lt p) as [x|] eqn:A1; [|discriminate]. destruct (rt p) as [y|] eqn:A2; [|discriminate].
    destruct (lt q) as [|f ls] eqn:A3; [discriminate|]. destruct (rt q) as [|g rs] eqn:A4; [discriminate|].
    destruct (negb (Nat.eqb x y) && Nat.eqb f g && (internal <? f) && negb (isinj f) && negb (Nat.eqb (length ls) 0)) eqn:Q; [|discriminate].
    rewrite !andb_true_iff, !negb_true_iff in Q. destruct Q as [[[[Q1 Q2] _] _] _]. apply Nat.eqb_neq in Q1. apply Nat.eqb_eq in Q2. subst g.
    destruct (var_args ls) as [lv|] eqn:B1; [|discriminate]. destruct (var_args rs) as [rv|] eqn:B2; [|discriminate].
    destruct (inj_index x y lv rv) as [i|] eqn:B3; [|discriminate]. destruct (inj_scan lv rv [] []) as [sv|] eqn:B4; [|discriminate].
    intros [= <- <-]. apply var_args_some in B1, B2. subst ls rs. exists x, y, f, lv, rv, sv, i.
    split; [|auto 12]. destruct O2 as (W1 & W2 & _). rewrite A3 in W1. rewrite A4 in W2.
    pose proof (wf_fun_length _ _ _ _ W1 W2) as L. rewrite !map_length in L. exact L. }
  intros H OK. unfold recognize_injectivity in H. destruct c as [|a [|b [|]]]; try discriminate. inversion OK as [|? ? O1 OK']; subst. inversion OK' as [|? ? O2 _]; subst.
  destruct (pos a) eqn:Pa; destruct (pos b) eqn:Pb; cbn in H; try discriminate.
  - destruct (K a b Pa Pb O1 O2 H) as (x & y & f & lv & rv & sv & i & R). exists x, y, f, lv, rv, sv, i, a, b. intuition.
  - destruct (K b a Pb Pa O2 O1 H) as (x & y & f & lv & rv & sv & i & R). exists x, y, f, lv, rv, sv, i, b, a. intuition.
Qed.

Lemma swap_true S M a b : clause_true S M [a; b] <-> clause_true S M [b; a].
Proof. unfold clause_true. split; intros H v Hv; specialize (H v Hv); rewrite !Exists_cons in *; tauto. Qed.

(** what one replacement does *)
Lemma one_replacement E internal isinj n c repl dc : env_ok E -> recognize_injectivity E internal isinj n c = Some (repl, dc) -> clause_ok E c ->
  below n c -> decl_in E dc -> 2 < n ->
  dcl_sym dc = n /\ clause_ok E repl /\ below (S n) repl
  /\ (forall M, model_ok (srt E) (dist E) M -> clause_true (srt E) M repl -> clause_true (srt E) M c)
  /\ (forall M, model_ok (srt E) (dist E) M -> clause_true (srt E) M c ->
        exists F, model_ok (srt E) (dist E) (mk (dom M) (isort M) F) /\ (forall g ds, g <> n -> F g ds = ifun M g ds)
          /\ clause_true (srt E) (mk (dom M) (isort M) F) repl).
Proof.
  intros HE H OK BL DC N2. destruct (recognize_some _ _ _ _ _ _ _ H OK) as (x & y & f & lv & rv & sv & i & p & q & SH & L & SC & IX & P1 & P2 & S1 & S2 & O1 & O2 & XY & -> & ->).
  assert (FN : f < n).
  { apply (BL q f); [destruct SH as [->| ->]; cbn; auto|]. unfold lit_syms. destruct S2 as [-> _]. left. reflexivity. }
  split; [reflexivity|]. split; [|split; [|split]].
  - constructor; [|constructor]. apply (new_eqn_ok E HE x y f n lv rv sv i p q L SC IX S1 S2 O1 O2 DC).
  - intros e h [<-|[]] Hh. apply (new_syms E x y f n lv rv sv i p q S1 S2) in Hh. destruct Hh; lia.
  - intros M HM HT. assert (clause_true (srt E) M [p; q]) as X.
    { apply (new_to_old E HE x y f n lv rv sv i p q L SC IX P1 P2 S1 S2 O1 O2 XY DC M HM HT). }
    destruct SH as [->| ->]; auto. apply swap_true. exact X.
  - intros M HM HT. assert (clause_true (srt E) M [p; q]) as X by (destruct SH as [->| ->]; auto; apply swap_true; exact HT).
    destruct (mo_inh _ _ _ HM (vsort (srt E) x)) as [def HD].
    exists (ifun (inv_str E f n lv sv i M def)). split; [|split].
    + apply (inv_str_ok E x y f n lv rv sv i p L IX S1 O1 DC M def HM HD).
    + intros g ds Hg. cbn. destruct ds; auto. apply Nat.eqb_neq in Hg. rewrite Hg. reflexivity.
    + apply (inv_str_new E HE x y f n lv rv sv i p q L SC IX P1 P2 S1 S2 O1 O2 XY DC M def FN HM HD X).
Qed.

Lemma below_le n m c : n <= m -> below n c -> below m c.
Proof. intros L H e h He Hh. specialize (H e h He Hh). lia. Qed.

Lemma replace_spec E internal known n0 : env_ok E -> forall set n tmp r a ds, 2 < n ->
  replace_inj E internal known n0 n set tmp = (r, a, ds) -> Forall (clause_ok E) (set ++ tmp) -> Forall (below n) (set ++ tmp) -> Forall (decl_in E) ds ->
  Forall (clause_ok E) r /\ incl a set /\ incl tmp r /\ (forall c, In c set -> In c a \/ In c r) /\ length r = length set + length tmp
  /\ Forall (fun d => n <= dcl_sym d) ds
  /\ (forall M, model_ok (srt E) (dist E) M -> satisfied E M r -> satisfied E M (set ++ tmp))
  /\ (forall M, model_ok (srt E) (dist E) M -> satisfied E M (set ++ tmp) ->
        exists F, model_ok (srt E) (dist E) (mk (dom M) (isort M) F) /\ (forall g ds', ~ In g (map dcl_sym ds) -> F g ds' = ifun M g ds')
          /\ satisfied E (mk (dom M) (isort M) F) r).
Proof.
  intros HE. induction set as [|c set IH]; intros n tmp r a ds N; cbn [replace_inj].
  - intros [= <- <- <-] OK _ _. cbn in *. split; auto. split; [apply incl_refl|]. split; [apply incl_refl|]. split; [intros c []|]. split; auto. split; auto. split; auto.
    intros M HM HS. exists (ifun M). rewrite <- mk_eta. auto.
  - destruct (recognize_injectivity E internal (fun f => n0 <=? f) n c) as [[repl dc]|] eqn:R.
    + destruct (known tmp repl).
      * destruct (replace_inj E internal known n0 (S n) set tmp) as [[r' a'] ds'] eqn:Q. intros [= <- <- <-] OK BL DC.
        inversion OK as [|? ? O1 O2]; subst. inversion BL as [|? ? B1 B2]; subst. inversion DC as [|? ? D1 D2]; subst.
        destruct (one_replacement _ _ _ _ _ _ _ HE R O1 B1 D1 N) as [Y1 _].
        destruct (IH (S n) tmp r' a' ds' ltac:(lia) Q O2) as (I1 & I2 & I3 & I4 & I5 & I6 & I7 & I8); auto.
        { eapply Forall_impl; [|exact B2]. intros d. apply below_le. lia. }
        split; [constructor; auto|]. split; [apply incl_tl; auto|]. split; [apply incl_tl; auto|].
        split; [intros d [<-|Hd]; [right; left; auto|destruct (I4 d Hd); auto; right; right; auto]|]. split; [cbn; lia|].
        split; [constructor; [lia|eapply Forall_impl; [|exact I6]; cbn; lia]|]. split.
        -- intros M HM HS d [<-|Hd]; [apply HS; left; auto|]. apply (I7 M HM); auto. intros z Hz. apply HS. right. auto.
        -- intros M HM HS. destruct (I8 M HM) as [F [J1 [J2 J3]]]; [intros z Hz; apply HS; right; auto|].
           exists F. split; auto. split; [intros g z Hg; apply J2; intros X; apply Hg; right; auto|]. intros d [<-|Hd]; auto.
           assert (T : clause_true (srt E) M c) by (apply HS; left; auto). rewrite (mk_eta M) in T. revert T.
           apply (agree_true E (dom M) (isort M) n); auto. intros g z Hg. first [apply J2|symmetry; apply J2]. intros X. apply in_map_iff in X. destruct X as [d0 [<- X]].
           rewrite Forall_forall in I6. specialize (I6 d0 X). lia.
      * destruct (replace_inj E internal known n0 (S n) set (tmp ++ [repl])) as [[r' a'] ds'] eqn:Q. intros [= <- <- <-] OK BL DC.
        inversion OK as [|? ? O1 O2]; subst. inversion BL as [|? ? B1 B2]; subst. inversion DC as [|? ? D1 D2]; subst.
        destruct (one_replacement _ _ _ _ _ _ _ HE R O1 B1 D1 N) as (Y1 & Y2 & Y3 & Y4 & Y5).
        destruct (IH (S n) (tmp ++ [repl]) r' a' ds' ltac:(lia) Q) as (I1 & I2 & I3 & I4 & I5 & I6 & I7 & I8); auto.
        { rewrite app_assoc. apply Forall_app. split; auto. }
        { rewrite app_assoc. apply Forall_app. split; [|constructor; auto]. eapply Forall_impl; [|exact B2]. intros d. apply below_le. lia. }
        split; auto. split; [intros z [<-|Hz]; [left; auto|right; auto]|]. split; [intros z Hz; apply I3; apply in_app_iff; auto|].
        split; [intros d [<-|Hd]; [left; left; auto|destruct (I4 d Hd); auto; left; right; auto]|]. split; [rewrite app_length in I5; cbn in *; lia|].
        split; [constructor; [lia|eapply Forall_impl; [|exact I6]; cbn; lia]|]. split.
        -- intros M HM HS. assert (X := I7 M HM HS). intros d Hd. cbn in Hd. destruct Hd as [<-|Hd].
           ++ apply Y4; auto. apply X. rewrite !in_app_iff. right. right. left. auto.
           ++ apply X. rewrite !in_app_iff in *. tauto.
        -- intros M HM HS. destruct (Y5 M HM) as [F1 [K1 [K2 K3]]]; [apply HS; left; auto|].
           destruct (I8 _ K1) as [F [J1 [J2 J3]]].
           { intros d Hd. rewrite app_assoc, in_app_iff in Hd. destruct Hd as [Hd|[<-|[]]]; auto.
             assert (T : clause_true (srt E) M d) by (apply HS; right; auto). rewrite (mk_eta M) in T. revert T.
             apply (agree_true E (dom M) (isort M) n); [|rewrite Forall_forall in B2; auto]. intros g z Hg. first [apply K2|symmetry; apply K2]; lia. }
           cbn [dom isort mk] in *. exists F. split; auto. split; auto. intros g z Hg. cbn in Hg. rewrite J2 by tauto. cbn. apply K2. intros ->. apply Hg. left. exact Y1.
    + destruct (replace_inj E internal known n0 n set tmp) as [[r' a'] ds'] eqn:Q. intros [= <- <- <-] OK BL DC.
      inversion OK as [|? ? O1 O2]; subst. inversion BL as [|? ? B1 B2]; subst.
      destruct (IH n tmp r' a' ds' N Q O2 B2 DC) as (I1 & I2 & I3 & I4 & I5 & I6 & I7 & I8); auto.
      split; [constructor; auto|]. split; [apply incl_tl; auto|]. split; [apply incl_tl; auto|].
      split; [intros d [<-|Hd]; [right; left; auto|destruct (I4 d Hd); auto; right; right; auto]|]. split; [cbn; lia|]. split; auto. split.
      * intros M HM HS d [<-|Hd]; [apply HS; left; auto|]. apply (I7 M HM); auto. intros z Hz. apply HS. right. auto.
      * intros M HM HS. destruct (I8 M HM) as [F [J1 [J2 J3]]]; [intros z Hz; apply HS; right; auto|].
        exists F. split; auto. split; auto. intros d [<-|Hd]; auto.
        assert (T : clause_true (srt E) M c) by (apply HS; left; auto). rewrite (mk_eta M) in T. revert T.
        apply (agree_true E (dom M) (isort M) n); auto. intros g z Hg. first [apply J2|symmetry; apply J2]. intros X. apply in_map_iff in X. destruct X as [d0 [<- X]].
        rewrite Forall_forall in I6. specialize (I6 d0 X). lia.
Qed.
