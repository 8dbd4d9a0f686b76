(** * C51: blocked clause elimination preserves satisfiability. *)
From Coq Require Import Permutation.
From Verif Require Import Terms Unify UnifyProofs KBO Semantics Clauses ClausesProofs ExEnv Taut Split Infer InferProofs InferTotal UnfoldProps
  Bce BceFlip BceLoop BceEq BceNeq BceProofs BceTotal.
Local Open Scope nat_scope.

(** A clause set of a first-order problem, with its variables in [base] and the second set of variables given by [alt] *)
Definition problem (E : env) (alt : var -> var) (base : var -> Prop) (N : list clause) : Prop :=
  env_ok E /\ fo_sig E /\ fo_sorts (srt E) (pp E) /\ alt_ok E alt base
  /\ Forall (clause_ok E) N /\ Forall (fo_clause E) N /\ Forall (over base) N.

Section Run.
Variables (E : env) (alt : var -> var) (eno : term -> Z) (max_neg n : nat) (pick : list task -> nat).

Lemma run_chain fuel limit N N' A : eliminate_blocked E alt eno max_neg n pick fuel limit N = Some (N', A) ->
  exists m he arch, make_sym_map limit N = (m, he) /\ N' = remaining N arch /\ A = select N arch
    /\ chain E alt eno max_neg n he N (initial N m) [] arch
    /\ forall t, initial N m t -> In (torig t) arch \/ exists d, In d (tcands t) /\ d <> torig t /\ ~ In d arch /\ chk_id E alt eno max_neg n he N t d = Some false.
Proof.
  unfold eliminate_blocked. destruct (make_sym_map limit N) as [m he] eqn:SM. destruct (eliminate _ _ _ _ _ _ _ _ _ _ _ _) as [arch|] eqn:EL; [|discriminate].
  intros H. injection H as <- <-. exists m, he, arch. split; auto. split; [reflexivity|]. split; [reflexivity|].
  apply (elim_spec E alt eno max_neg n pick he N (initial N m) _ _ _ _ _ EL). apply inv_start; auto. apply queue_tasks.
Qed.
End Run.

(** Nothing is lost: each clause either stays in the set or goes to the archive. *)
Lemma select_app N a b : select N (a ++ b) = select N a ++ select N b.
Proof. apply flat_map_app. Qed.
Lemma select_perm N a b : Permutation a b -> Permutation (select N a) (select N b).
Proof. apply Permutation_flat_map. Qed.
Lemma select_all N : select N (seq 0 (length N)) = N.
Proof.
  assert (G : forall N' pre : list clause, flat_map (fun i => match nth_error (pre ++ N') i with Some c => [c] | None => [] end) (seq (length pre) (length N')) = N').
  { induction N' as [|c N' IH]; intros pre; cbn; auto. rewrite nth_error_app2, Nat.sub_diag by lia. cbn. f_equal.
    specialize (IH (pre ++ [c])). rewrite app_length, <- app_assoc in IH. cbn in IH. rewrite Nat.add_1_r in IH. exact IH. }
  apply (G N []).
Qed.
Lemma split_perm (arch l : list nat) : NoDup arch -> NoDup l -> incl arch l -> Permutation l (filter (fun i => negb (existsb (Nat.eqb i) arch)) l ++ arch).
Proof.
  intros N1 N2 I. apply NoDup_Permutation; auto.
  - apply nodup_app; auto; [apply NoDup_filter; auto|]. intros x Hx Hy. apply filter_In in Hx. destruct Hx as [_ Hx]. apply existsb_mem in Hy. rewrite Hy in Hx. discriminate.
  - intros x. rewrite in_app_iff, filter_In. split.
    + intros Hx. destruct (existsb (Nat.eqb x) arch) eqn:X; [right; apply existsb_mem; auto|left; auto].
    + intros [[H _]|H]; auto.
Qed.
Lemma chain_nodup E alt eno max_neg n he N m arch : chain E alt eno max_neg n he N (initial N m) [] arch -> NoDup arch /\ incl arch (seq 0 (length N)).
Proof.
  intros (ext & -> & H). cbn [List.app] in *. split.
  - assert (G : forall post pre, ext = pre ++ post -> NoDup pre -> NoDup ext).
    { induction post as [|o post IH]; intros pre EX ND; [rewrite app_nil_r in EX; congruence|]. apply (IH (pre ++ [o])); [rewrite <- app_assoc; auto|].
      apply nodup_app; auto; [constructor; [intros []|constructor]|]. intros x Hx [<-|[]]. apply (H pre o post EX). auto. }
    apply (G ext []); auto. constructor.
  - intros x Hx. apply in_split in Hx. destruct Hx as (pre & post & EX). destruct (H pre x post EX) as [(t & [_ (C & L & k & NC & _)] & TO & _) _].
    apply in_seq. rewrite TO in NC. assert (nth_error N x <> None) by congruence. apply nth_error_Some in H0. lia.
Qed.

Theorem C51_partition : forall E alt eno max_neg n pick fuel limit N N' A, eliminate_blocked E alt eno max_neg n pick fuel limit N = Some (N', A) -> Permutation N (N' ++ A).
Proof.
  intros E alt eno max_neg n pick fuel limit N N' A H. destruct (run_chain _ _ _ _ _ _ _ _ _ _ _ H) as (m & he & arch & _ & -> & -> & CH & _).
  destruct (chain_nodup _ _ _ _ _ _ _ _ _ CH) as [ND IN]. unfold remaining. rewrite <- select_app. rewrite <- (select_all N) at 1. apply select_perm.
  apply split_perm; auto. apply seq_NoDup.
Qed.

(** The clauses that stay are satisfiable exactly if all were: no proof is lost and none is gained. *)
Theorem C51_sat : forall E alt base eno max_neg n pick fuel limit N N' A, problem E alt base N -> (forall s t, eno s = eno t -> s = t) ->
  eliminate_blocked E alt eno max_neg n pick fuel limit N = Some (N', A) ->
  (sat E N <-> sat E N') /\ (unsat E N <-> unsat E N').
Proof.
  intros E alt base eno max_neg n pick fuel limit N N' A (HE & HF & HFS & HA & NO & NF & NB) EI H.
  destruct (run_chain _ _ _ _ _ _ _ _ _ _ _ H) as (m & he & arch & SM & -> & -> & CH & _).
  assert (ALL : remaining N [] = N).
  { unfold remaining. rewrite <- (select_all N) at 3. f_equal. rewrite (filter_ext _ (fun _ => true)) by reflexivity. generalize (seq 0 (length N)). induction l; cbn; congruence. }
  assert (F : sat E (remaining N arch) -> sat E N).
  { intros S. rewrite <- ALL. apply (chain_sat E alt base eno max_neg n HE HF HFS HA EI limit N NO NF NB m he SM arch CH S). }
  assert (B : forall M, satisfied E M N -> satisfied E M (remaining N arch)) by (intros M HS c Hc; apply HS; eapply remaining_sub; eauto).
  split; split.
  - intros [M [HM HS]]. exists M. auto.
  - exact F.
  - intros U M HM HS. destruct (F ltac:(exists M; auto)) as [M' [HM' HS']]. apply (U M' HM' HS').
  - intros U M HM HS. apply (U M HM). auto.
Qed.

(** Without a limit on the occurrences the result cannot be reduced further: for every atom of every clause that stays, another clause that stays
    fails the check. *)
Lemma sym_lit_eq limit i s e : snd (sym_lit limit i s e) = snd s || equlit e.
Proof.
  destruct s as [m b]. unfold sym_lit. destruct (equlit e); [cbn; rewrite orb_true_r; auto|]. rewrite orb_false_r. destruct (lit_key e) as [k|]; auto.
  destruct (is_blocked (m k)); auto. destruct (_ && _); auto. destruct (m k) as [[|j l]|]; auto. destruct (Nat.eqb i j); auto.
Qed.
Lemma make_sym_map_eq limit N : snd (make_sym_map limit N) = existsb (existsb equlit) N.
Proof.
  assert (C : forall i c s, snd (fold_left (sym_lit limit i) c s) = snd s || existsb equlit c).
  { intros i. induction c as [|e c IH]; intros s; cbn; [rewrite orb_false_r; auto|]. rewrite IH, sym_lit_eq, orb_assoc. reflexivity. }
  assert (G : forall N i s, snd (sym_map limit i N s) = snd s || existsb (existsb equlit) N).
  { induction N0 as [|c N0 IH]; intros i s; cbn; [rewrite orb_false_r; auto|]. rewrite IH, C, orb_assoc. reflexivity. }
  unfold make_sym_map. rewrite G. reflexivity.
Qed.
Lemma no_limit N m b : make_sym_map 0 N = (m, b) -> forall k, m k <> Some [].
Proof.
  assert (L : forall i e s, (forall k, fst s k <> Some []) -> forall k, fst (sym_lit 0 i s e) k <> Some []).
  { intros i e [m' b'] H k. cbn in H. unfold sym_lit. destruct (equlit e); [apply H|]. destruct (lit_key e) as [k'|]; [|apply H]. destruct (is_blocked (m' k')); [apply H|]. cbn [Nat.ltb Nat.leb andb].
    destruct (m' k') as [[|j l]|] eqn:MK; [apply H| |].
    - destruct (Nat.eqb i j); [apply H|]. cbn. unfold store. destruct (key_eqb k' k); [discriminate|apply H].
    - cbn. unfold store. destruct (key_eqb k' k); [discriminate|apply H]. }
  assert (C : forall i c s, (forall k, fst s k <> Some []) -> forall k, fst (fold_left (sym_lit 0 i) c s) k <> Some []).
  { intros i. induction c as [|e c IH]; intros s H; cbn; auto. }
  assert (G : forall N i s, (forall k, fst s k <> Some []) -> forall k, fst (sym_map 0 i N s) k <> Some []).
  { induction N0 as [|c N0 IH]; intros i s H; cbn; auto. }
  unfold make_sym_map. intros H k. replace m with (fst (sym_map 0 0 N (fun _ => None, false))) by (rewrite H; reflexivity). apply G. discriminate.
Qed.

Theorem C51_exhaustive : forall E alt eno max_neg n pick fuel N N' A, eliminate_blocked E alt eno max_neg n pick fuel 0 N = Some (N', A) ->
  forall C j L p l, In C N' -> nth_error C j = Some L -> equlit L = false -> lt L = Fun p l ->
  exists D, In D N' /\ check E alt eno max_neg n (existsb (existsb equlit) N) C j D = Some false.
Proof.
  intros E alt eno max_neg n pick fuel N N' A H C j L p l IC NL QL LL.
  destruct (run_chain _ _ _ _ _ _ _ _ _ _ _ H) as (m & he & arch & SM & -> & -> & CH & EX).
  assert (HEQ : he = existsb (existsb equlit) N) by (rewrite <- (make_sym_map_eq 0), SM; reflexivity). rewrite <- HEQ.
  apply remaining_in in IC. destruct IC as [i [Ni Ai]]. pose proof (no_limit N m he SM) as NB.
  pose (cands := match m (opp (p, pos L)) with Some l => rev l | None => [] end).
  destruct (EX (mktask i j cands 0)) as [X|(d & D1 & D2 & D3 & D4)].
  - split; [reflexivity|]. exists C, L, (p, pos L). cbn. unfold lit_key. rewrite LL. split; auto. split; auto. split; auto. split; auto. unfold cands.
    destruct (m (opp (p, pos L))) as [l'|] eqn:MO; [right; exists l'; split; auto; split; [|auto]|left; auto]. intros ->. apply (NB _ MO).
  - cbn in X. contradiction.
  - unfold chk_id in D4. cbn in D4. rewrite Ni in D4. destruct (nth_error N d) as [D|] eqn:Nd; [|discriminate]. exists D. split; auto. apply remaining_in. eauto.
Qed.

(** The elimination ends, if the checks do; *)
Theorem C51_terminates : forall E alt eno max_neg n pick limit N,
  (forall C j L D, In C N -> In D N -> nth_error C j = Some L -> equlit L = false -> check E alt eno max_neg n (existsb (existsb equlit) N) C j D <> None) ->
  exists bound, forall fuel, bound <= fuel -> exists r, eliminate_blocked E alt eno max_neg n pick fuel limit N = Some r.
Proof.
  intros E alt eno max_neg n pick limit N HC. unfold eliminate_blocked. pose proof (make_sym_map_eq limit N) as HEQ. destruct (make_sym_map limit N) as [m he] eqn:SM. cbn in HEQ. subst he.
  exists (total (make_queue m 0 N) []). intros fuel HL.
  destruct (elim_total E alt eno max_neg n pick (existsb (existsb equlit) N) N (initial N m)) with (fuel := fuel) (q := make_queue m 0 N) (arch := @nil nat) (blk := @nil (nat * task)) as [arch EL]; auto.
  - intros t d [_ (C & L & k & NC & NL & QL & KL & HCa)] Hd. unfold chk_id. rewrite NC.
    assert (exists D, nth_error N d = Some D) as [D ND].
    { destruct (make_sym_map_spec _ _ _ _ SM) as (_ & _ & M3 & _). destruct HCa as [[_ TC]|(l & M0 & _ & TC)]; rewrite TC in Hd; [destruct Hd|]. rewrite <- in_rev in Hd.
      specialize (M3 _ _ M0 _ Hd). destruct (nth_error N d) eqn:X; eauto. apply nth_error_None in X. lia. }
    rewrite ND. apply (HC C (tlit t) L D); auto; eapply nth_error_In; eauto.
  - apply inv_start; auto. apply queue_tasks.
  - rewrite EL. eauto.
Qed.
(** without equations they do. *)
Theorem C51_checks : forall E alt base eno max_neg N, problem E alt base N -> existsb (existsb equlit) N = false ->
  exists n0, forall n, n0 <= n -> forall C j L D, In C N -> In D N -> nth_error C j = Some L -> check E alt eno max_neg n false C j D <> None.
Proof.
  intros E alt base eno max_neg N (HE & HF & HFS & HA & NO & NF & NB) _.
  assert (ONE : forall C j D, In C N -> In D N -> j < length C -> exists n0, forall n, n0 <= n -> check E alt eno max_neg n false C j D <> None).
  { intros C j D IC ID LJ. unfold check. destruct (nth_error (disjoint E alt C) j) as [l|] eqn:NJ.
    2:{ apply nth_error_None in NJ. unfold disjoint in NJ. rewrite map_length in NJ. lia. }
    destruct (nth_disjoint E alt C j l NJ) as (e & Ne & ->). pose proof (nth_error_In _ _ Ne) as Ie.
    pose proof NO as NO1. pose proof NF as NF1. rewrite Forall_forall in NO1, NF1. pose proof (NO1 C IC) as OC. pose proof (NF1 C IC) as FC. pose proof (NO1 D ID) as OD.
    unfold clause_ok, fo_clause in OC, FC, OD. rewrite Forall_forall in OC, FC, OD.
    destruct (disjoint_ok E alt HE base HA e (FC e Ie) (OC e Ie)) as [_ (W & _)].
    destruct (check_neq_settles E (disjoint E alt C) j (disjoint_lit E alt e) D W) as [r [n0 H]]; [intros x Hx; apply (OD x Hx)|].
    exists n0. intros n Hn. rewrite (H n Hn). discriminate. }
  assert (ALL : forall l, incl l (flat_map (fun C => flat_map (fun D => map (fun j => (C, j, D)) (seq 0 (length C))) N) N) ->
    exists n0, forall n, n0 <= n -> forall C j D, In (C, j, D) l -> check E alt eno max_neg n false C j D <> None).
  { induction l as [|[[C j] D] l IH]; intros I; [exists 0; intros n _ C j D []|].
    destruct IH as [n1 H1]; [intros x Hx; apply I; right; auto|]. specialize (I _ (or_introl eq_refl)). apply in_flat_map in I. destruct I as [C' [IC I]].
    apply in_flat_map in I. destruct I as [D' [ID I]]. apply in_map_iff in I. destruct I as [j' [EQ Hj]]. injection EQ as -> -> ->. apply in_seq in Hj.
    destruct (ONE C j D IC ID ltac:(lia)) as [n2 H2]. exists (Nat.max n1 n2). intros n Hn C1 j1 D1 [EQ|Hx]; [injection EQ as <- <- <-; apply H2; lia|apply H1; auto; lia]. }
  destruct (ALL _ (incl_refl _)) as [n0 H0]. exists n0. intros n Hn C j L D IC ID NL. apply (H0 n Hn). apply in_flat_map. exists C. split; auto. apply in_flat_map. exists D. split; auto.
  apply in_map_iff. exists j. split; auto. apply in_seq. assert (nth_error C j <> None) by congruence. apply nth_error_Some in H. lia.
Qed.
Theorem C51_ends : forall E alt base eno max_neg N, problem E alt base N -> existsb (existsb equlit) N = false ->
  exists n0, forall n pick limit, n0 <= n -> exists bound, forall fuel, bound <= fuel -> exists r, eliminate_blocked E alt eno max_neg n pick fuel limit N = Some r.
Proof.
  intros E alt base eno max_neg N P Q. destruct (C51_checks E alt base eno max_neg N P Q) as [n0 H]. exists n0. intros n pick limit Hn. apply C51_terminates. rewrite Q.
  intros C j L D IC ID NL _. eapply H; eauto.
Qed.

(** Example without equality: q(a,X)|p(X) is blocked by its first literal, as ~q(X,Y)|~p(Y) is the only partner; without it ~q(X,Y)|~p(Y) is blocked too.
    p(f(X))|~p(X) is not blocked, nor is p(a). *)
Definition alt51 (x : var) : var := 4 * x + 2.
Definition base51 (x : var) : Prop := Nat.modulo x 4 = 0.
Definition V51 (i : nat) : term := Var (4 * i).
Definition N51 : list clause :=
  [ [at0 (ExEnv.q0 a0 (V51 1)); at0 (p0 (V51 1))]; [nat0 (ExEnv.q0 (V51 0) (V51 1)); nat0 (p0 (V51 1))]; [at0 (p0 (f0 (V51 0))); nat0 (p0 (V51 0))]; [at0 (p0 a0)]; [nat0 (p0 (f0 b0))] ].
(** Example with equality: ~p(X)|X=a is blocked as p(a) is the only partner; p(a) is not, because of ~p(b) *)
Definition N51e : list clause := [ [nat0 (p0 (V51 0)); eq0 (V51 0) a0]; [at0 (p0 a0)]; [eq0 (f0 a0) b0]; [nat0 (p0 b0)] ].
Definition run51 (N : list clause) := eliminate_blocked E0 alt51 eno49 1 30 (fun _ => 0) 100 0 N.

Lemma alt51_even x : Nat.odd (4 * x + 2) = false.
Proof. rewrite <- Nat.negb_even. replace (4 * x + 2) with (0 + 2 * (2 * x + 1)) by lia. rewrite Nat.even_add_mul_2. reflexivity. Qed.
Lemma alt51_ok : alt_ok E0 alt51 base51.
Proof.
  split; [reflexivity|]. split; [exact alt51_even|]. split.
  - intros x. unfold base51, alt51. rewrite Nat.add_comm, Nat.mul_comm, Nat.mod_add by lia. discriminate.
  - unfold alt51. intros x y H. lia.
Qed.
Lemma E0_fo : fo_sig E0.
Proof.
  split; [|split].
  - intros f s. cbn. do 11 (destruct f as [|f]; cbn; try (intros []; fail); try (intros [<-|H]; [discriminate|]; try destruct H as [<-|[]]; try destruct H; discriminate)).
  - intros x. cbn. discriminate.
  - intros f H. cbn in *. unfold dist0 in H. apply orb_true_iff in H. rewrite !Nat.eqb_eq in H. destruct H as [-> | ->]; discriminate.
Qed.
Lemma lits51 (N : list clause) : forallb (forallb (fun e => eqn_okb E0 e && (if equlit e then negb (Nat.eqb (tsort S0 (lt e)) 0) else match lt e with Fun p _ => Nat.ltb 2 p | _ => false end)
    && forallb (fun x => Nat.eqb (Nat.modulo x 4) 0) (vars (lt e) ++ vars (rt e)))) N = true -> problem E0 alt51 base51 N.
Proof.
  intros H. rewrite forallb_forall in H. split; [apply E0_ok|]. split; [apply E0_fo|]. split; [apply S0_fo|]. split; [apply alt51_ok|].
  split; [|split]; apply Forall_forall; intros c Hc; specialize (H c Hc); rewrite forallb_forall in H.
  - apply clause_okb. apply forallb_forall. intros e He. specialize (H e He). apply andb_true_iff in H. destruct H as [H _]. apply andb_true_iff in H. apply H.
  - apply Forall_forall. intros e He. specialize (H e He). apply andb_true_iff in H. destruct H as [H _]. apply andb_true_iff in H. destruct H as [_ H]. unfold fo_lit. destruct (equlit e).
    + apply negb_true_iff, Nat.eqb_neq in H. exact H.
    + destruct (lt e) as [x|p l]; [discriminate|]. apply Nat.ltb_lt in H. exists p, l. split; auto. unfold true_code, false_code. lia.
  - intros e x He Hx. specialize (H e He). apply andb_true_iff in H. destruct H as [_ H]. rewrite forallb_forall in H. specialize (H x Hx). apply Nat.eqb_eq in H. exact H.
Qed.
Example C51_nonvacuous : problem E0 alt51 base51 N51 /\ problem E0 alt51 base51 N51e /\ (forall s t, eno49 s = eno49 t -> s = t)
  /\ existsb (existsb equlit) N51 = false
  /\ run51 N51 = Some (skipn 2 N51, firstn 2 N51)
  /\ run51 N51e = Some (tl N51e, firstn 1 N51e).
Proof.
  split; [apply lits51; reflexivity|]. split; [apply lits51; reflexivity|]. split; [intros s t H; unfold eno49 in H; injection H as H; apply pair49_inj in H; apply (enum49_inj s t [] []); rewrite !app_nil_r; exact H|]. split; [reflexivity|]. split; vm_compute; reflexivity.
Qed.

(** The claim needs [fo_lit]: the literal ~$true, which stays in the clauses without the other preprocessing steps, counts as an atom without partners.
    The false clause is removed and the set becomes satisfiable. *)
Theorem C51_false_literal_refuted : exists N, Forall (clause_ok E0) N /\ unsat E0 N /\ run51 N = Some ([], N) /\ sat E0 [].
Proof.
  exists [[nat0 ttrue]]. split; [constructor; [apply clause_okb; reflexivity|constructor]|]. split; [|split; [vm_compute; reflexivity|]].
  - intros M HM HS. destruct (valuation E0 M HM) as [v Hv]. specialize (HS _ (or_introl eq_refl) v Hv). inversion HS as [? ? H|? ? H]; subst; [apply H; reflexivity|inversion H].
  - exists M0. split; [apply M0_ok|]. intros c [].
Qed.

(** Clauses with answer literals: the prover disregards these literals (a clause with no others is a proof), the elimination does not.  *)
Definition E51 : env := {| srt := S0; pp := pp0; dist := dist0; pspred := Nat.eqb 10; fresh := fresh E0 |}.
Definition answer51 (t : term) : eqn := mkeqn (ExEnv.q0 t t) ttrue true false false false false false true.
Definition disregard (N : list clause) : list clause := map (filter (fun e => negb (pseudo e))) N.
Theorem C51_answer_refuted : exists N N' A, Forall (clause_ok E51) N /\ Forall (fo_clause E51) N
  /\ eliminate_blocked E51 alt51 eno49 1 30 (fun _ => 0) 100 0 N = Some (N', A) /\ unsat E51 (disregard N) /\ sat E51 (disregard N').
Proof.
  exists [ [at0 (p0 a0)]; [nat0 (p0 (V51 0)); answer51 (V51 0)] ]. eexists. eexists. split; [|split; [|split; [vm_compute; reflexivity|split]]].
  - apply Forall_forall. intros c [<-|[<-|[]]]; apply clause_okb; reflexivity.
  - apply Forall_forall. intros c Hc. unfold fo_clause. apply Forall_forall. intros e He. unfold fo_lit.
    destruct Hc as [<-|[<-|[]]]; repeat (destruct He as [<-|He]; [cbn; do 2 eexists; split; [reflexivity|]; split; discriminate|]); destruct He.
  - intros M HM HS. destruct (valuation E51 M HM) as [v Hv].
    pose proof (HS _ (or_introl eq_refl) v Hv) as H1. inversion H1 as [? ? A1|? ? A1]; subst; [|inversion A1].
    pose proof (HS _ (or_intror (or_introl eq_refl)) (fun x => eval M v (if Nat.eqb x 0 then a0 else Var x))) as H2.
    assert (H3 : respects (srt E51) M (fun x => eval M v (if Nat.eqb x 0 then a0 else Var x))).
    { apply (respects_subst _ (dist E51) M v (fun x => if Nat.eqb x 0 then a0 else Var x)); auto. intros x. destruct (Nat.eqb x 0); split; reflexivity. }
    specialize (H2 H3). inversion H2 as [? ? A2|? ? A2]; subst; [|inversion A2]. apply A2. exact A1.
  - exists M0. split; [apply M0_ok|]. intros c [].
Qed.

Print Assumptions C51_partition.
Print Assumptions C51_sat.
Print Assumptions C51_exhaustive.
Print Assumptions C51_terminates.
Print Assumptions C51_checks.
Print Assumptions C51_ends.
Print Assumptions C51_false_literal_refuted.
Print Assumptions C51_answer_refuted.
