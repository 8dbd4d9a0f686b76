(** C24, C25, C43: sharing, garbage collection, and building terms through the bank. *)
From Coq Require Import Permutation.
From Verif Require Import Terms Splay SplayProofs SplayProps TermBank TermBankProofs TermBankOpsProofs TermBankGCProofs.
Local Open Scope Z_scope.

(** ** Fair allocators exist *)
Lemma fit_free : forall n h x used, (length used <= n)%nat -> (forall y, x <= y -> h y <> None -> In y used) -> h (fit h x n) = None /\ x <= fit h x n.
Proof.
  induction n as [|n IH]; intros h x used L H; cbn [fit].
  - destruct used; [|cbn in L; lia]. split; [|lia]. destruct (h x) eqn:E; auto. exfalso. apply (H x); [lia|congruence].
  - destruct (h x) eqn:E; [|split; auto; lia]. assert (Ix : In x used) by (apply H; [lia|congruence]).
    destruct (IH h (x + 1) (remove Z.eq_dec x used)) as [A B].
    + pose proof (remove_length_lt Z.eq_dec used x Ix). lia.
    + intros y Hy Ny. apply in_in_remove; [lia|]. apply H; auto. lia.
    + split; auto. lia.
Qed.
Example first_fit_fair : fair_alloc first_fit.
Proof. intros n h used L H. unfold first_fit. destruct (fit_free n h 1 used L) as [A B]; auto. split; auto. lia. Qed.

(** ** C24 *)

Section Claims.
  Variable alloc : nat -> (Z -> option cell) -> Z.
  Hypothesis FA : fair_alloc alloc.

  (** Insertion always succeeds; the cell returned stands for the term; cells of the bank keep standing for their terms. *)
  Theorem C24_insert : forall b t, program_state alloc b ->
    exists b' a, tb_insert alloc t b = Ok (b', a) /\ program_state alloc b' /\ shared b' a /\ denotes (heap b') a t /\
      forall x u, shared b x -> denotes (heap b) x u -> shared b' x /\ denotes (heap b') x u.
  Proof.
    intros b t P. pose proof (program_pinv alloc b FA P) as I. destruct (tb_insert_spec alloc FA t b (p_inv b I)) as [b' [a [E [I' [X [S D]]]]]].
    exists b', a. split; auto. assert (U : use alloc b b') by (eapply use_insert; eauto). split; [eapply ps_use; eauto|]. split; auto. split; auto.
    destruct (use_pinv alloc FA b b' I U) as [_ [SH DN]]. auto.
  Qed.

  (** The same cell for two insertions iff the terms are equal, whatever happened in between (as long as no collection found the first
      cell unreachable). *)
  Theorem C24_canonical : forall b t b1 a b2 u b3 a', program_state alloc b -> tb_insert alloc t b = Ok (b1, a) ->
    keeping alloc a b1 b2 -> tb_insert alloc u b2 = Ok (b3, a') -> (a = a' <-> t = u).
  Proof.
    intros b t b1 a b2 u b3 a' P E1 K E2. pose proof (program_pinv alloc b FA P) as I.
    destruct (tb_insert_spec alloc FA t b (p_inv b I)) as [b1' [a1 [Q1 [I1 [X1 [S1 D1]]]]]]. rewrite E1 in Q1. injection Q1 as <- <-.
    destruct (keeping_keeps alloc a b1 b2 FA (pinv_ext b b1 I I1 X1) S1 K) as [I2 [S2 D2]]. specialize (D2 t D1).
    destruct (tb_insert_spec alloc FA u b2 (p_inv b2 I2)) as [b3' [a2 [Q2 [I3 [X3 [S3 D3]]]]]]. rewrite E2 in Q2. injection Q2 as <- <-.
    pose proof (ext_shared b2 b3 a X3 S2) as S4. pose proof (ext_denotes b2 b3 a t X3 D2) as D4. split.
    - intros <-. eapply denotes_det; eauto.
    - intros <-. eapply canon; eauto.
  Qed.

  (** In any state: two cells of the bank standing for the same term are the same cell, and no cell stands for two terms. *)
  Theorem C24_unique : forall b a a' t t', program_state alloc b -> shared b a -> shared b a' -> denotes (heap b) a t -> denotes (heap b) a' t' ->
    (a = a' <-> t = t').
  Proof.
    intros b a a' t t' P S S' D D'. pose proof (program_pinv alloc b FA P) as I. split; intros <-; [eapply denotes_det|eapply canon]; eauto. apply I.
  Qed.

  (** Every allocated cell is a cell of the bank, stands for a term, and its cached values are those of the term. *)
  Theorem C24_cached : forall b a, program_state alloc b -> heap b a <> None ->
    shared b a /\ exists c t, heap b a = Some c /\ denotes (heap b) a t /\ weight c = stdweight t /\
      v_count c = nvars t mod 2 ^ 32 /\ f_count c = nsyms t mod 2 ^ 32 /\
      (nvars t < 2 ^ 32 -> (ground c = true <-> vars t = [])).
  Proof.
    intros b a P H. pose proof (program_pinv alloc b FA P) as I. pose proof (p_leak b I a H) as S. split; auto.
    destruct (inv_denotes b a (p_inv b I) S) as [t D]. destruct (inv_counts b a t (p_inv b I) S D) as [c [E [W [V [F G]]]]].
    exists c, t. split; auto. split; auto. split; auto. split; auto. split; auto. intros L.
    assert (NV : 0 <= nvars t /\ (nvars t = 0 <-> vars t = [])).
    { clear. induction t as [x|f ts IH] using term_ind'; cbn [nvars vars]; [split; [lia|split; [lia|discriminate]]|].
      induction IH as [|u us [H1 H2] _ [H3 H4]]; cbn [fold_right flat_map]; [split; [lia|tauto]|]. split; [lia|]. split.
      - intros E. rewrite (proj1 H2) by lia. rewrite (proj1 H4) by lia. auto.
      - intros E. apply app_eq_nil in E. destruct E as [E1 E2]. rewrite (proj2 H2 E1), (proj2 H4 E2). auto. }
    assert (VN : v_count c = nvars t).
    { rewrite V. unfold wrap32. apply Z.mod_small. change (2 ^ 32) with 4294967296 in L. lia. }
    rewrite G, VN, Z.eqb_eq. apply NV.
  Qed.

  (** Lookup of a term finds its cell, or NULL if the bank has none, and changes nothing. *)
  Theorem C24_find : forall b t a b', program_state alloc b -> tb_find t b = (a, b') ->
    heap b' = heap b /\ (forall x, shared b' x <-> shared b x) /\
    ((shared b a /\ denotes (heap b) a t) \/ (a = 0 /\ forall x, shared b x -> ~ denotes (heap b) x t)).
  Proof.
    intros b t a b' P E. pose proof (program_pinv alloc b FA P) as I. pose proof (tb_find_spec t b (p_inv b I)) as H. rewrite E in H. destruct H as [S F].
    split; [apply (s_heap b b' S)|]. split.
    - destruct (same_inv b b' (p_inv b I) S) as [_ [SS SV]]. intros x. unfold shared. rewrite SS, SV. tauto.
    - destruct F; auto.
  Qed.

  (** The node counter is the number of stored cells. *)
  Theorem C24_entries : forall b, program_state alloc b ->
    exists l, NoDup l /\ (forall x, In x l <-> stored b x) /\ entries b = Z.of_nat (length l).
  Proof.
    intros b P. pose proof (p_inv b (program_pinv alloc b FA P)) as I.
    set (ps := flat_map (fun i => inordk (store b i)) bucket_list).
    assert (IN : forall i k a, In (k, a) (inordk (store b i)) <-> st b k a /\ hash k = i).
    { intros i k a. rewrite <- look_in by apply (i_tok b I). split.
      - intros H. pose proof (i_hash b I i k a H) as Q. split; auto. unfold st. rewrite <- Q. auto.
      - intros [H <-]. auto. }
    assert (INP : forall k a, In (k, a) ps <-> st b k a).
    { intros k a. unfold ps. rewrite in_flat_map. split.
      - intros [i [_ H]]. apply IN in H. tauto.
      - intros H. exists (hash k). split; [apply hash_in|]. apply IN. auto. }
    assert (ND : NoDup (map snd ps)).
    { assert (Q : forall k k' a, In (k, a) ps -> In (k', a) ps -> k = k').
      { intros k k' a H H'. apply INP in H, H'. destruct (i_cell b I k a H) as [c [E [K _]]], (i_cell b I k' a H') as [c' [E' [K' _]]]. congruence. }
      assert (NP : NoDup ps).
      { unfold ps. generalize bucket_nodup. generalize bucket_list as L. induction L as [|i L IH]; intros NL; cbn [flat_map]; [constructor|].
        apply NoDup_cons_iff in NL. destruct NL as [N1 N2]. specialize (IH N2). pose proof (tok_nodup _ (i_tok b I i)) as N3.
        assert (DJ : forall e, In e (inordk (store b i)) -> ~ In e (flat_map (fun i => inordk (store b i)) L)).
        { intros [k a] H H'. apply IN in H. apply in_flat_map in H'. destruct H' as [j [Hj H']]. apply IN in H'. destruct H as [_ H], H' as [_ H']. congruence. }
        revert N3 DJ. generalize (inordk (store b i)) as M. induction M as [|e M IHM]; intros N3 DJ; cbn [List.app]; auto. apply NoDup_cons_iff in N3. destruct N3 as [N3 N4].
        constructor; [|apply IHM; auto; intros e' He'; apply DJ; right; auto]. intros H. apply in_app_or in H. destruct H as [H|H]; auto. apply (DJ e); auto. left; auto. }
      revert Q NP. generalize ps as L. clear. induction L as [|[k a] L IH]; intros Q ND; cbn [map snd]; [constructor|]. apply NoDup_cons_iff in ND. destruct ND as [N1 N2]. constructor.
      - intros H. apply in_map_iff in H. destruct H as [[k' a'] [E H]]. cbn in E. subst a'. apply N1. rewrite (Q k k' a); [auto|left; auto|right; auto].
      - apply IH; auto. intros k1 k2 x H1 H2. apply (Q k1 k2 x); right; auto. }
    exists (map snd ps). split; auto. split.
    - intros x. rewrite in_map_iff. split.
      + intros [[k a] [<- H]]. exists k. apply (proj1 (INP k a) H).
      + intros [k H]. exists (k, x). split; auto. exact (proj2 (INP k x) H).
    - rewrite (i_cnt b I), map_length. unfold ps, total. clear. generalize bucket_list. intros L. induction L as [|i L IH]; [reflexivity|].
      cbn [fold_right flat_map]. rewrite app_length, Nat2Z.inj_add, IH. reflexivity.
  Qed.

  (** ** C25 *)

  (** For every state and every set of roots, a collection terminates, and: the cells stored afterwards are exactly the ones stored before
      that are reachable from the roots (or from the true/false/min terms); their cells and those of the variables are unchanged; they
      still stand for the same terms; the memory of every other stored cell has been freed; nothing else was allocated or freed; the
      number reported is the number of cells removed; and the bank is in a state from which the program can go on (so the same
      holds for the next collection). *)
  Theorem C25_collect : forall b roots, program_state alloc b -> (forall x, In x roots -> shared b x) ->
    exists need, forall fuel, (need <= fuel)%nat -> exists b' n, gc_collect fuel roots b = Ok (b', n) /\ program_state alloc b' /\
      (forall x, stored b' x <-> stored b x /\ reachable (heap b) (all_roots b roots) x) /\
      (forall x, is_var b' x <-> is_var b x) /\
      (forall x c, heap b x = Some c -> (is_var b x \/ reachable (heap b) (all_roots b roots) x) ->
         exists c', heap b' x = Some c' /\ same_cell c c') /\
      (forall x t, shared b x -> (is_var b x \/ reachable (heap b) (all_roots b roots) x) -> denotes (heap b) x t -> denotes (heap b') x t) /\
      (forall x, stored b x -> ~ reachable (heap b) (all_roots b roots) x -> heap b' x = None) /\
      (forall x, heap b x = None -> heap b' x = None) /\
      n = entries b - entries b' /\ recovered b' = recovered b + n.
  Proof.
    intros b roots P S. pose proof (program_pinv alloc b FA P) as I. destruct (gc_collect_spec b roots I S) as [need H]. exists need.
    intros fuel L. destruct (H fuel L) as [b' [n [E R]]]. exists b', n. split; auto. split; [eapply ps_gc; eauto|].
    destruct R as [I' [SB [VB [KEPT [GONE [NONE [N [RC _]]]]]]]]. split; auto. split; [intros x; unfold is_var; rewrite VB; tauto|]. split; auto. split; [|auto].
    intros x t Sx Q D.
    apply (denotes_agree (fun x => shared b x /\ (is_var b x \/ reachable (heap b) (all_roots b roots) x)) (heap b)); auto.
    - intros y c z [Sy Ry] Ey Hz. destruct (kid_shared b y z (p_inv b I) Sy) as [Sz Sty]; [exists c; auto|]. split; auto. right.
      destruct Ry as [V|Ry]; [|eapply reach_arg; eauto]. exfalso. destruct (stored_cell b y (p_inv b I) Sty) as [c1 [E1 [_ P1]]].
      destruct (var_cell b y (p_inv b I) V) as [c2 [E2 [_ P2]]]. rewrite E1 in E2. injection E2 as <-. lia.
    - intros y c [Sy Ry] Ey. destruct (KEPT y c Ey Ry) as [c' [E' SC]]. exists c'. split; auto. rewrite SC. reflexivity.
  Qed.

  (** Too little fuel is the only way not to finish: a collection that returns has done what [C25_collect] says, and none is undefined. *)
  Theorem C25_defined : forall b roots fuel, program_state alloc b -> (forall x, In x roots -> shared b x) -> gc_collect fuel roots b <> Undef.
  Proof.
    intros b roots fuel P S E. pose proof (program_pinv alloc b FA P) as I. destruct (gc_collect_spec b roots I S) as [need H].
    destruct (H (Nat.max need fuel) ltac:(lia)) as [b1 [n1 [E1 _]]].
    assert (MONO : forall f f' b s, (f <= f')%nat -> gc_mark f b s <> NoFuel -> gc_mark f' b s = gc_mark f b s).
    { clear. induction f as [|f IH]; intros [|f'] b [|a s] L; cbn [gc_mark]; try lia; auto; try contradiction.
      destruct (heap b a) as [c|]; auto. destruct (Bool.eqb (gflag c) (gstate b)); apply IH; lia. }
    assert (MALL : forall f f' r b, (f <= f')%nat -> gc_mark_all f b r <> NoFuel -> gc_mark_all f' b r = gc_mark_all f b r).
    { intros f f' r. induction r as [|x r IH]; intros b0 L; cbn [gc_mark_all]; auto.
      destruct (gc_mark f b0 [x]) as [b3| |] eqn:G; cbn [rbind]; intros N; [| |contradiction]; rewrite (MONO f f') by (auto; congruence); rewrite G; cbn [rbind]; auto. }
    assert (L : (fuel <= Nat.max need fuel)%nat) by lia. revert E E1. unfold gc_collect, gc_sweep.
    destruct (gc_mark_all fuel b roots) as [b2| |] eqn:G1; cbn [rbind]; try discriminate;
      [|intros _; rewrite (MALL fuel _ roots b L), G1 by congruence; discriminate]. rewrite (MALL fuel _ roots b L), G1 by congruence. cbn [rbind].
    destruct (gc_mark fuel b2 [true_term b2]) as [b3| |] eqn:G2; cbn [rbind]; try discriminate;
      [|intros _; rewrite (MONO fuel _ b2 _ L), G2 by congruence; discriminate]. rewrite (MONO fuel _ b2 _ L), G2 by congruence. cbn [rbind].
    destruct (gc_mark fuel b3 [false_term b3]) as [b4| |] eqn:G3; cbn [rbind]; try discriminate;
      [|intros _; rewrite (MONO fuel _ b3 _ L), G3 by congruence; discriminate]. rewrite (MONO fuel _ b3 _ L), G3 by congruence. cbn [rbind].
    destruct (gc_mark_all fuel b4 (map snd (min_terms b4))) as [b5| |] eqn:G4; cbn [rbind]; try discriminate;
      [|intros _; rewrite (MALL fuel _ _ b4 L), G4 by congruence; discriminate]. rewrite (MALL fuel _ _ b4 L), G4 by congruence. cbn [rbind].
    intros E E1. rewrite E in E1. discriminate.
  Qed.

  (** ** C43 *)

  (** A cell that is shared and not garbage-collected; [s] is the substitution that the variable bindings [bnd] stand for. *)
  Definition binds (b : bank) (bnd : Z -> option Z) (s : subst) : Prop :=
    (forall y r, bnd y = Some r -> is_var b y /\ shared b r) /\
    forall x a, varcell b (vcode x) = Some a -> match bnd a with Some r => denotes (heap b) r (s x) | None => s x = Var x end.

  (** Instantiating a term with fewer than 2^32 variable occurrences gives exactly the instance. *)
  Theorem C43_instance_partial : forall b bnd s a t n, program_state alloc b -> binds b bnd s -> shared b a -> denotes (heap b) a t ->
    nvars t < 2 ^ 32 -> (tdepth t <= n)%nat ->
    exists b' r, tb_inst alloc n bnd a b = Ok (b', r) /\ program_state alloc b' /\ shared b' r /\ denotes (heap b') r (Terms.app s t).
  Proof.
    intros b bnd s a t n P [B1 B2] S D L N. pose proof (program_pinv alloc b FA P) as I.
    pose proof (tb_inst_spec alloc FA b bnd s (p_inv b I) B1 B2 n a b t (p_inv b I) (grows_refl b) S D) as H.
    destruct (tb_inst alloc n bnd a b) as [[b' r]| |] eqn:E; cbn in H; [|contradiction|lia]. destruct H as [_ [_ [Sr [u [Hu Du]]]]].
    exists b', r. split; auto. split; [eapply ps_use; [exact P|]; eapply use_inst; eauto|]. split; auto. rewrite <- Hu; auto.
  Qed.
  (** Replacing a subterm gives exactly the replaced term. *)
  Theorem C43_replace : forall b old repl s r0 a t n, program_state alloc b -> shared b old -> shared b repl -> shared b a ->
    denotes (heap b) old s -> denotes (heap b) repl r0 -> denotes (heap b) a t -> (tdepth t <= n)%nat ->
    exists b' r, tb_repl alloc n old repl a b = Ok (b', r) /\ program_state alloc b' /\ shared b' r /\ denotes (heap b') r (replace_all s r0 t).
  Proof.
    intros b old repl s r0 a t n P So Sr Sa Do Dr Da N. pose proof (program_pinv alloc b FA P) as I.
    pose proof (tb_repl_spec alloc FA b old repl s r0 (p_inv b I) So Sr Do Dr n a b t (p_inv b I) (grows_refl b) Sa Da) as H.
    destruct (tb_repl alloc n old repl a b) as [[b' r]| |] eqn:E; cbn in H; [|contradiction|lia]. destruct H as [_ [_ [S' [u [-> Du]]]]].
    exists b', r. split; auto. split; [eapply ps_use; [exact P|]; eapply use_repl; [| | |exact E]; auto|]. auto.
  Qed.
  (** Making a variable-disjoint copy renames every variable to its alternative, for terms with fewer than 2^32 variable occurrences. *)
  Theorem C43_disjoint_partial : forall b a t n, program_state alloc b -> shared b a -> denotes (heap b) a t ->
    (forall v, In v (vars t) -> Nat.odd v = true) -> nvars t < 2 ^ 32 -> (tdepth t <= n)%nat ->
    exists b' r, tb_disjoint alloc n a b = Ok (b', r) /\ program_state alloc b' /\ shared b' r /\ denotes (heap b') r (Terms.app alt_var t) /\
      (forall v, In v (vars (Terms.app alt_var t)) -> ~ In v (vars t)).
  Proof.
    intros b a t n P S D O L N. pose proof (program_pinv alloc b FA P) as I.
    pose proof (tb_disjoint_spec alloc FA b (p_inv b I) n a b t (p_inv b I) (grows_refl b) S D O) as H.
    destruct (tb_disjoint alloc n a b) as [[b' r]| |] eqn:E; cbn in H; [|contradiction|lia]. destruct H as [_ [_ [S' [u [Hu Du]]]]].
    exists b', r. split; auto. split; [eapply ps_use; [exact P|]; eapply use_disjoint; [| | |exact E]; eauto|]. split; auto. split; [rewrite <- Hu; auto|].
    assert (V : forall v, In v (vars (Terms.app alt_var t)) -> exists w, In w (vars t) /\ v = (w - 1)%nat).
    { clear. induction t as [x|f ts IH] using term_ind'; cbn [Terms.app vars alt_var].
      - intros v [<-|[]]. exists x. cbn; auto.
      - intros v Hv. apply in_flat_map in Hv. destruct Hv as [u [Hu Hv]]. apply in_map_iff in Hu. destruct Hu as [w [<- Hw]].
        rewrite Forall_forall in IH. destruct (IH w Hw v Hv) as [z [Hz ->]]. exists z. split; auto. apply in_flat_map. exists w. auto. }
    intros v Hv Hv'. destruct (V v Hv) as [w [Hw ->]]. pose proof (O w Hw) as O1. pose proof (O _ Hv') as O2.
    destruct w as [|w]; [discriminate|]. cbn [Nat.sub] in O2. rewrite Nat.sub_0_r in O2. rewrite Nat.odd_succ, <- Nat.negb_odd, O2 in O1. discriminate.
  Qed.
End Claims.

(** The bound on the number of variable occurrences is needed: a term with 2^32 of them (33 cells in the bank) is taken for a ground term,
    and instantiating it leaves it unchanged. *)
Fixpoint doubled (n : nat) : term := match n with O => Var 1%nat | S n' => Fun 2%nat [doubled n'; doubled n'] end.
Lemma nvars_doubled n : nvars (doubled n) = 2 ^ Z.of_nat n.
Proof.
  induction n as [|n IH]; [reflexivity|]. cbn [doubled nvars fold_right]. rewrite IH. rewrite Nat2Z.inj_succ, Z.pow_succ_r by lia. lia.
Qed.
Lemma doubled_app s n : s 1%nat <> Var 1%nat -> Terms.app s (doubled n) <> doubled n.
Proof. intros N. induction n as [|n IH]; cbn [doubled Terms.app map]; auto. intros E. injection E as E _. auto. Qed.

Theorem C43_instance_refuted : exists alloc b bnd s a t r b', fair_alloc alloc /\ program_state alloc b /\ binds b bnd s /\ shared b a /\
  denotes (heap b) a t /\ (forall n, (tdepth t <= n)%nat -> tb_inst alloc n bnd a b = Ok (b', r)) /\ ~ denotes (heap b') r (Terms.app s t).
Proof.
  pose proof first_fit_fair as FA. destruct (tb_alloc_spec first_fit FA) as [b0 [E0 [P0 _]]].
  assert (PS0 : program_state first_fit b0) by (constructor; auto).
  set (s := fun v : var => if Nat.eqb v 1 then Fun 3%nat [] else Var v).
  assert (exists t, nvars t = 2 ^ 32 /\ Terms.app s t <> t) as [t [NV NA]].
  { exists (doubled 32%nat). split; [apply nvars_doubled|apply doubled_app; discriminate]. }
  destruct (C24_insert first_fit FA b0 (Var 1%nat) PS0) as [b1 [x [_ [P1 [Sx [Dx _]]]]]].
  destruct (C24_insert first_fit FA b1 (Fun 3%nat []) P1) as [b2 [y [_ [P2 [Sy [Dy K2]]]]]].
  destruct (C24_insert first_fit FA b2 t P2) as [b [a [_ [P [Sa [Da K3]]]]]].
  destruct (K2 x _ Sx Dx) as [Sx2 Dx2]. destruct (K3 x _ Sx2 Dx2) as [Sx3 Dx3]. destruct (K3 y _ Sy Dy) as [Sy3 Dy3].
  pose proof (p_inv b (program_pinv _ b FA P)) as I.
  assert (Vx : varcell b (vcode 1%nat) = Some x).
  { destruct Sx3 as [S|[f V]].
    - exfalso. destruct (stored_cell b x I S) as [c [Ec [_ Pc]]]. destruct Dx3 as [c' [Ec' Fc]]. rewrite Ec in Ec'. injection Ec' as <-. unfold vcode in Fc. lia.
    - destruct (i_var b I f x V) as [_ [c [Ec [Fc _]]]]. destruct Dx3 as [c' [Ec' Fc']]. rewrite Ec in Ec'. injection Ec' as <-. congruence. }
  set (bnd := fun z : Z => if z =? x then Some y else None).
  destruct (inv_counts b a _ I Sa Da) as [c [Ec [_ [V [_ G]]]]]. rewrite NV in V. cbn in V. rewrite V in G. cbn in G.
  exists first_fit, b, bnd, s, a, t, a, b. split; auto. split; auto. split.
  { split.
    - intros z r. unfold bnd. destruct (Z.eqb_spec z x) as [->|]; [|discriminate]. intros [= <-]. split; [exists (vcode 1%nat); auto|auto].
    - intros v z Vz. unfold bnd, s. destruct (Z.eqb_spec z x) as [->|N].
      + destruct (i_var b I _ _ Vz) as [_ [c1 [E1 [F1 _]]]], (i_var b I _ _ Vx) as [_ [c2 [E2 [F2 _]]]]. rewrite E1 in E2. injection E2 as <-.
        rewrite F1 in F2. unfold vcode in F2. assert (v = 1%nat) as -> by lia. cbn. exact Dy3.
      + destruct (Nat.eqb_spec v 1) as [->|]; auto. congruence. }
  split; auto. split; auto. split.
  - intros [|n] L; [destruct t; cbn in L; lia|]. cbn [tb_inst]. rewrite Ec, G. reflexivity.
  - intros D. apply NA. eapply denotes_det; eauto.
Qed.

(** *** a run *)
Definition run : res (Z * Z * Z * Z * Z * Z * (Z * Z)) :=
  rbind (tb_alloc first_fit) (fun b0 =>
  rbind (tb_insert first_fit (Fun 5%nat [Fun 6%nat [Var 1%nat]; Fun 6%nat [Var 1%nat]]) b0) (fun '(b1, a) =>
  rbind (tb_insert first_fit (Fun 6%nat [Var 1%nat]) b1) (fun '(b2, a2) =>
  rbind (tb_insert first_fit (Fun 7%nat []) b2) (fun '(b3, a3) =>
  rbind (gc_collect 20 [a2] b3) (fun '(b4, n) =>
  rbind (tb_insert first_fit (Fun 5%nat [Fun 6%nat [Var 1%nat]; Fun 6%nat [Var 1%nat]]) b4) (fun '(b5, a4) =>
  rbind (gc_collect 20 [a4] b5) (fun '(b6, n2) => Ok (a, a2, a3, n, a4, n2, (entries b3, entries b6))))))))).
Example run_result : exists a a2 a3 a4, run = Ok (a, a2, a3, 2, a4, 0, (5, 4)) /\ a <> a2 /\ a2 <> a3.
Proof. vm_compute. do 4 eexists. split; [reflexivity|]. split; discriminate. Qed.

(** the hypotheses of the claims hold in a state with nontrivial terms, links and garbage *)
Example state_example : exists b a x, program_state first_fit b /\ stored b a /\ is_var b x /\ denotes (heap b) a (Fun 5%nat [Var 1%nat; Var 1%nat]) /\
  (exists y, stored b y /\ ~ reachable (heap b) (all_roots b [x]) y) /\ binds b (fun z => if z =? x then Some a else None) (fun v => if Nat.eqb v 1 then Fun 5%nat [Var 1%nat; Var 1%nat] else Var v).
Proof.
  pose proof first_fit_fair as FA. destruct (tb_alloc_spec first_fit FA) as [b0 [E0 [P0 _]]].
  assert (PS0 : program_state first_fit b0) by (constructor; auto).
  destruct (C24_insert first_fit FA b0 (Var 1%nat) PS0) as [b1 [x [Q1 [P1 [Sx [Dx _]]]]]].
  destruct (C24_insert first_fit FA b1 (Fun 5%nat [Var 1%nat; Var 1%nat]) P1) as [b [a [Q2 [P [Sa [Da K2]]]]]].
  destruct (K2 x _ Sx Dx) as [Sx2 Dx2]. pose proof (p_inv b (program_pinv _ b FA P)) as I.
  assert (Vx : varcell b (vcode 1%nat) = Some x).
  { destruct Sx2 as [S|[f V]].
    - exfalso. destruct (stored_cell b x I S) as [c [Ec [_ Pc]]]. destruct Dx2 as [c' [Ec' Fc]]. rewrite Ec in Ec'. injection Ec' as <-. unfold vcode in Fc. lia.
    - destruct (i_var b I f x V) as [_ [c [Ec [Fc _]]]]. destruct Dx2 as [c' [Ec' Fc']]. rewrite Ec in Ec'. injection Ec' as <-. congruence. }
  assert (Sta : stored b a).
  { destruct Sa as [S|V]; auto. exfalso. destruct (var_cell b a I V) as [c [Ec [_ Pc]]]. destruct Da as [c' [Ec' [Fc _]]]. rewrite Ec in Ec'. injection Ec' as <-. pose proof (scode_pos 5%nat). lia. }
  exists b, a, x. split; auto. split; auto. split; [exists (vcode 1%nat); auto|]. split; auto. split.
  - exists a. split; auto.
    assert (EQ : exists b1' b' x' a', tb_alloc first_fit = Ok b0 /\ tb_insert first_fit (Var 1%nat) b0 = Ok (b1', x') /\ tb_insert first_fit (Fun 5%nat [Var 1%nat; Var 1%nat]) b1' = Ok (b', a')
      /\ b1' = b1 /\ b' = b /\ x' = x /\ a' = a) by (do 4 eexists; repeat split; eauto).
    (* reachable cells are constants or variables *)
    destruct (tb_alloc_spec first_fit FA) as [b0' [E0' [P0' [Dt Df]]]]. rewrite E0 in E0'. injection E0' as <-.
    destruct (p_roots b0 P0) as [St [Sf _]].
    destruct (tb_insert_spec first_fit FA (Var 1%nat) b0 (p_inv b0 P0)) as [b1' [x' [Q1' [I1 [X1 _]]]]]. rewrite Q1 in Q1'. injection Q1' as <- <-.
    destruct (tb_insert_spec first_fit FA (Fun 5%nat [Var 1%nat; Var 1%nat]) b1 I1) as [b2' [x' [Q2' [I2 [X2 _]]]]]. rewrite Q2 in Q2'. injection Q2' as <- <-.
    destruct (e_roots b0 b1 X1) as [R1 [R2 R3]], (e_roots b1 b X2) as [R1' [R2' R3']].
    assert (MN : min_terms b0 = []).
    { revert E0. unfold tb_alloc. destruct (tb_insert first_fit (Fun 0%nat []) empty_bank) as [[c1 z1]| |]; cbn [rbind]; try discriminate.
      destruct (tb_insert first_fit (Fun 1%nat []) c1) as [[c2 z2]| |]; cbn [rbind]; try discriminate. intros [= <-]. reflexivity. }
    assert (Dt' : denotes (heap b) (true_term b0) (Fun 0%nat [])) by (apply (ext_denotes b1 b); auto; apply (ext_denotes b0 b1); auto).
    assert (Df' : denotes (heap b) (false_term b0) (Fun 1%nat [])) by (apply (ext_denotes b1 b); auto; apply (ext_denotes b0 b1); auto).
    assert (AR : all_roots b [x] = [x; true_term b0; false_term b0]) by (unfold all_roots; rewrite R1', R1, R2', R2, R3', R3, MN; reflexivity).
    rewrite AR. clear EQ.
    assert (LF : forall z, reachable (heap b) [x; true_term b0; false_term b0] z -> In z [x; true_term b0; false_term b0]).
    { intros z R. induction R as [z H|z c w _ IH Ec Hw|z c w _ IH Ec Hw]; auto; exfalso.
      - destruct IH as [<-|[<-|[<-|[]]]].
        + destruct (i_var b I _ _ Vx) as [_ [c' [Ec' [_ [Ac _]]]]]. rewrite Ec in Ec'. injection Ec' as <-. rewrite Ac in Hw. destruct Hw.
        + destruct Dt' as [c' [Ec' [_ Ac]]]. rewrite Ec in Ec'. injection Ec' as <-. destruct (cargs c); [destruct Hw|contradiction].
        + destruct Df' as [c' [Ec' [_ Ac]]]. rewrite Ec in Ec'. injection Ec' as <-. destruct (cargs c); [destruct Hw|contradiction].
      - assert (NL : forall q cq, heap b q = Some cq -> replace cq = None).
        { intros q cq Eq. assert (CK : exists bb, (rbind (tb_alloc first_fit) (fun b0 => rbind (tb_insert first_fit (Var 1%nat) b0) (fun '(b1, _) => tb_insert first_fit (Fun 5%nat [Var 1%nat; Var 1%nat]) b1))) = Ok (bb, a) /\ bb = b)
            by (exists b; rewrite E0; cbn [rbind]; rewrite Q1; cbn [rbind]; rewrite Q2; auto).
          destruct CK as [bb [CK <-]]. revert CK Eq. vm_compute. intros [= <- _]. cbn.
          destruct q as [|q|q]; try discriminate. do 5 (destruct q as [q|q|]; cbn; try discriminate; try (intros [= <-]; reflexivity)). }
        rewrite (NL z c Ec) in Hw. discriminate. }
    intros R. apply LF in R. destruct R as [E|[E|[E|[]]]].
    + subst a. destruct (var_cell b x I) as [c [Ec [_ Pc]]]; [exists (vcode 1%nat); auto|]. destruct (stored_cell b x I Sta) as [c' [Ec' [_ Pc']]]. rewrite Ec in Ec'. injection Ec' as <-. lia.
    + subst a. pose proof (denotes_det _ _ _ _ Da Dt') as X. discriminate.
    + subst a. pose proof (denotes_det _ _ _ _ Da Df') as X. discriminate.
  - split.
    + intros z r. destruct (Z.eqb_spec z x) as [->|]; [|discriminate]. intros [= <-]. split; [exists (vcode 1%nat); auto|auto].
    + intros v z Vz. destruct (Z.eqb_spec z x) as [->|N].
      * destruct (i_var b I _ _ Vz) as [_ [c1 [E1 [F1 _]]]], (i_var b I _ _ Vx) as [_ [c2 [E2 [F2 _]]]]. rewrite E1 in E2. injection E2 as <-.
        rewrite F1 in F2. unfold vcode in F2. assert (v = 1%nat) as -> by lia. exact Da.
      * destruct (Nat.eqb_spec v 1) as [->|]; auto. congruence.
Qed.

Print Assumptions C24_insert.
Print Assumptions C24_canonical.
Print Assumptions C24_unique.
Print Assumptions C24_cached.
Print Assumptions C24_find.
Print Assumptions C24_entries.
Print Assumptions C25_collect.
Print Assumptions C25_defined.
Print Assumptions C43_instance_partial.
Print Assumptions C43_replace.
Print Assumptions C43_disjoint_partial.
Print Assumptions C43_instance_refuted.
