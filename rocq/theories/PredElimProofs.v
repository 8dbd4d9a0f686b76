(** * Predicate elimination without gates preserves satisfiability (C52). *)
From Coq Require Import Classical ClassicalEpsilon Permutation.
From Verif Require Import Terms Unify UnifyProofs MatchProofs Semantics Clauses ClausesProofs Taut TautProofs TautProps Split Infer InferProofs InferTotal Unfold UnfoldProofs
  Bce BceFlip BceEq BceNeq BceProofs BceTotal PredElim PredRes PredInv.
Local Open Scope nat_scope.

Lemma nodup_left {A} (a b : list A) : NoDup (a ++ b) -> NoDup a.
Proof. induction a as [|x a IH]; cbn; intros H; [constructor|]. inversion H; subst. constructor; auto. intros X. apply H2, in_app_iff. auto. Qed.

Section Step.
Variables (E : env) (alt : var -> var) (base : var -> Prop) (eno : term -> Z) (max_neg n : nat) (heur : nat -> nat).
Notation SS := (srt E).
Notation bool_sort := (fres SS true_code).
Hypotheses (HE : env_ok E) (HF : fo_sig E) (HFS : fo_sorts SS (pp E)) (HA : alt_ok E alt base) (HBa : forall s k, base (prim (fresh E s k)))
  (EI : forall s t, eno s = eno t -> s = t).

(** ** The semantic step *)
Lemma taut_true c M : clause_ok E c -> taut E eno max_neg n c = Some true -> model_ok SS (dist E) M -> clause_true SS M c.
Proof.
  intros OK H HM. unfold taut in H. destruct (clause_is_tautology eno max_neg E n c) as [b| |] eqn:T; try discriminate. injection H as ->.
  apply (C17_tautology_test_sound E eno max_neg n c HE OK) in T; [|intros a b t u _ _ _ _ X; auto]. apply T; auto. intros c0 [].
Qed.

Lemma holds_other M p q v e : model_ok SS (dist E) M -> is_pred E p -> eqn_ok E e -> fo_lit E e -> atom_of p e = false -> (holds (setp M p q) v e <-> holds M v e).
Proof.
  intros HM (P3 & P1 & P2) OK FO A. rewrite (gl_holds E HF M p HM P1 P3 q v e FO OK). unfold gl, atom_of in *. destruct (lt e) as [x|f a]; [reflexivity|]. rewrite A. reflexivity.
Qed.
Lemma holds_pred M p q v e a : model_ok SS (dist E) M -> is_pred E p -> eqn_ok E e -> fo_lit E e -> atom_of p e = true -> lt e = Fun p a ->
  (holds (setp M p q) v e <-> if pos e then q (map (eval M v) a) else ~ q (map (eval M v) a)).
Proof.
  intros HM (P3 & P1 & P2) OK FO A L. rewrite (gl_holds E HF M p HM P1 P3 q v e FO OK). unfold gl, atom_of in *. rewrite L in *. rewrite A. cbn [gtrue]. destruct (pos e); reflexivity.
Qed.
Lemma exists_other M p q v c : model_ok SS (dist E) M -> is_pred E p -> gc E c -> ~ occurs p c -> (Exists (holds (setp M p q) v) c <-> Exists (holds M v) c).
Proof.
  intros HM PP G NO. rewrite !Exists_exists. split; intros [e [I H]]; exists e; split; auto; destruct (gc_in E c e G I) as [OK FO]; apply (holds_other M p q v e HM PP OK FO); auto;
    (destruct (atom_of p e) eqn:A; auto; destruct NO; exists e; auto).
Qed.

(** the literal of a clause with one occurrence *)
Lemma sgn_find p s c : gc E c -> is_pred E p -> sgn p s c -> exists j L la, find_lit p (Some s) c = Some j /\ nth_error c j = Some L /\ lt L = Fun p la /\ pos L = s /\ atom_of p L = true /\ ~ occurs p (except j c).
Proof.
  intros G (PB & P1 & P2) [e [O1 O2]]. assert (IE : In e c /\ atom_of p e = true) by (apply filter_In; fold (occ p c); rewrite O1; left; auto). destruct IE as [IE AE].
  pose proof AE as AE'. apply atom_lt in AE'. destruct AE' as [QE [a LE]].
  destruct (find_exists p s c e IE ltac:(eauto) O2) as [j FJ]. destruct (find_spec p s c j FJ) as (L & la & NL & LL & PL). exists j, L, la. split; auto. split; auto. split; auto. split; auto.
  assert (AL : atom_of p L = true).
  { apply atom_lt. split; [|eauto]. destruct (equlit L) eqn:Q; auto. destruct (gc_in E c L G (nth_error_In _ _ NL)) as [_ FO]. unfold fo_lit in FO. rewrite Q, LL in FO. cbn in FO. contradiction. }
  split; auto. intros [e' [I' A']]. pose proof (atom_split p c j L NL AL) as PM. rewrite O1 in PM. apply Permutation_length in PM. cbn in PM.
  assert (X : In e' (occ p (except j c))) by (apply filter_In; auto). destruct (occ p (except j c)); [destruct X|cbn in PM; lia].
Qed.

(** a model of the clauses without p in which all pairs of clauses are covered can be changed to a model of the clauses with p *)
Lemma davis_putnam M p (others : list clause) (P N : list clause) : model_ok SS (dist E) M -> is_pred E p ->
  (forall c, In c others -> gc E c /\ ~ occurs p c /\ clause_true SS M c) ->
  (forall c, In c P -> gc E c /\ sgn p true c) -> (forall c, In c N -> gc E c /\ sgn p false c) ->
  (forall c d, In c P -> In d N -> covers E M p c d) ->
  exists M', model_ok SS (dist E) M' /\ forall c, In c others \/ In c P \/ In c N -> clause_true SS M' c.
Proof.
  intros HM PP HO HP HN HC.
  set (q := fun ds : list (dom M) => exists c j L la v, In c P /\ find_lit p (Some true) c = Some j /\ nth_error c j = Some L /\ lt L = Fun p la /\ respects SS M v /\ map (eval M v) la = ds /\ ~ Exists (holds M v) (except j c)).
  exists (setp M p q). pose proof PP as (P3 & P1 & P2). split; [apply (set_model E HE HF M p HM P1 P2 P3)|].
  assert (SUB : forall c j, gc E c -> gc E (except j c)) by (intros c j G; apply (gc_sub E _ _ G); intros e; apply except_in).
  intros c [I|[I|I]] v Hv.
  - destruct (HO c I) as (G & NO & T). apply (exists_other M p q v c); auto.
  - destruct (HP c I) as (G & SG). destruct (sgn_find p true c G PP SG) as (j & L & la & FJ & NL & LL & PL & AL & NO). apply (exists_split _ c j L NL).
    destruct (classic (Exists (holds M v) (except j c))) as [X|X]; [right; apply (exists_other M p q v (except j c)); auto|left].
    destruct (gc_in E c L G (nth_error_In _ _ NL)) as [OK FO]. apply (holds_pred M p q v L la HM PP OK FO AL LL). rewrite PL. exists c, j, L, la, v. auto 10.
  - destruct (HN c I) as (G & SG). destruct (sgn_find p false c G PP SG) as (k & K & lb & FK & NK & LK & PK & AK & NO). apply (exists_split _ c k K NK).
    destruct (classic (Exists (holds M v) (except k c))) as [X|X]; [right; apply (exists_other M p q v (except k c)); auto|left].
    destruct (gc_in E c K G (nth_error_In _ _ NK)) as [OK FO]. apply (holds_pred M p q v K lb HM PP OK FO AK LK). rewrite PK.
    intros (d & j & L & la & w & Id & FJ & NL & LL & Rw & EQ & NX). destruct (HC d c Id I j k L K la lb FJ NL LL FK NK LK w v Rw Hv EQ); auto.
Qed.

(** ** The clauses computed *)
Lemma singular_spec res st f P N cls : singular E eno max_neg n res st f P N = Some cls ->
  (forall i k, In i P -> In k N -> exists o, res (obj st i) (obj st k) f = Some o /\ forall r, o = Some r -> taut E eno max_neg n r = Some true \/ In r cls)
  /\ (forall r, In r cls -> exists i k, In i P /\ In k N /\ res (obj st i) (obj st k) f = Some (Some r)).
Proof.
  unfold singular. destruct (mapo _ (all_pairs P N)) as [ls|] eqn:MP; [|discriminate]. intros H. injection H as <-. apply mapo_spec in MP.
  assert (AP : forall i k, In (i, k) (all_pairs P N) <-> In i P /\ In k N).
  { intros i k. unfold all_pairs. rewrite in_flat_map. split.
    - intros [a [Ia H]]. apply in_map_iff in H. destruct H as [b [Q Ib]]. injection Q as -> ->. auto.
    - intros [A B]. exists i. split; auto. apply in_map_iff. eauto. }
  split.
  - intros i k Ii0 Ik. pose proof (proj2 (AP i k) (conj Ii0 Ik)) as Ii. clear Ii0 Ik AP. revert Ii. revert MP. generalize (all_pairs P N). intros l MP. induction MP as [|p l0 l ls HP MP IH]; intros Ii; [destruct Ii|]. destruct Ii as [->|Ii].
    + unfold resolve_pair in HP. cbn [fst snd] in HP. destruct (res (obj st i) (obj st k) f) as [o|]; [|discriminate]. exists o. split; auto. intros r ->.
      destruct (taut E eno max_neg n r) as [[|]|]; try discriminate; [auto|]. injection HP as <-. right. apply in_concat. exists [r]. split; left; auto.
    + destruct (IH Ii) as (o & R & HO). exists o. split; auto. intros r Hr. destruct (HO r Hr) as [X|X]; auto. right. cbn. apply in_app_iff. auto.
  - intros r Hr. apply in_concat in Hr. destruct Hr as [l [Il Ir]]. destruct (Forall2_in_r _ _ _ _ MP Il) as [[i k] [Ip HP]]. apply AP in Ip. exists i, k. split; [tauto|]. split; [tauto|].
    unfold resolve_pair in HP. cbn [fst snd] in HP. destruct (res (obj st i) (obj st k) f) as [[r'|]|]; [|injection HP as <-; destruct Ir|discriminate].
    destruct (taut E eno max_neg n r') as [[|]|]; try discriminate; injection HP as <-; [destruct Ir|]. destruct Ir as [->|[]]. auto.
Qed.

(** ** The state *)
Definition vis (st : pstate) (i : nat) (g : sym) : Prop := In i (passive st).
Record ok_state (eq : bool) (st : pstate) : Prop := {
  os_track : forall g, tracked E st (vis st) g;
  os_queue : queued st;
  os_keys : keyed st;
  os_part : Permutation (passive st ++ archive st) (seq 0 (length (objs st)));
  os_good : forall i, In i (passive st) -> gc E (obj st i) /\ over base (obj st i);
  os_atoms : eq = false -> forall i, In i (passive st) -> atoms_only (obj st i);
  os_arch : forall i, In i (archive st) -> exists f, occurs f (obj st i) /\ forall k, In k (passive st) -> ~ occurs f (obj st k) }.
Lemma os_nodup eq st : ok_state eq st -> NoDup (passive st ++ archive st).
Proof. intros H. apply (Permutation_NoDup (Permutation_sym (os_part eq st H))). apply seq_NoDup. Qed.
Lemma os_lt eq st i : ok_state eq st -> In i (passive st) \/ In i (archive st) -> i < length (objs st).
Proof. intros H I. apply in_app_iff in I. apply (Permutation_in _ (os_part eq st H)), in_seq in I. lia. Qed.

(** removing clauses *)
Lemma remove_perm i l : NoDup l -> In i l -> Permutation l (i :: remove_cl i l).
Proof.
  induction l as [|x l IH]; intros N I; [destruct I|]. inversion N as [|? ? H1 H2]; subst. unfold remove_cl in *. cbn [filter]. destruct (Nat.eqb_spec i x) as [->|NE]; cbn [negb].
  - apply perm_skip. apply Permutation_refl'. symmetry. clear IH N H2 I. induction l as [|y l IH]; auto. cbn [filter]. destruct (Nat.eqb_spec x y) as [->|NE]; [destruct H1; left; auto|]. cbn [negb]. f_equal. apply IH. intros X. apply H1. right. auto.
  - destruct I as [->|I]; [congruence|]. rewrite (IH H2 I) at 1. apply perm_swap.
Qed.

Lemma remove_all_spec : forall is st, (forall g, tracked E st (vis st) g) -> (forall i, In i (passive st) -> gc E (obj st i)) -> NoDup is -> incl is (passive st) -> NoDup (passive st) ->
  exists st', remove_all heur st is = Some st' /\ objs st' = objs st /\ archive st' = archive st ++ is /\ Permutation (passive st) (is ++ passive st') /\ (forall x, In x (passive st') <-> In x (passive st) /\ ~ In x is)
  /\ (forall g, tracked E st' (vis st') g) /\ blocks st st' /\ (queued st -> queued st') /\ (keyed st -> keyed st') /\ (forall g, tasks st' g <> None <-> tasks st g <> None).
Proof.
  induction is as [|i is IH]; intros st T G N I NP; cbn [remove_all].
  { exists st. split; auto. split; auto. split; [rewrite app_nil_r; auto|]. split; auto. split; [intros x; cbn; tauto|]. split; auto. split; [apply blocks_refl|]. split; auto. split; auto. reflexivity. }
  inversion N as [|? ? NI N']; subst. assert (II : In i (passive st)) by (apply I; left; auto).
  assert (T' : forall g, tracked E (move st i) (vis st) g) by exact T.
  destruct (react_spec E heur i (obj st i) (G i II) (obj st i) (move st i) (vis st) eq_refl (incl_refl _) T') as (st1 & R & (A1 & A2 & A3) & B & Q & K & T1 & NN).
  { intros g OC X. specialize (T g). unfold tracked in T. cbn in X. rewrite X in T. apply (T i II OC). }
  rewrite R. cbn [move objs passive archive] in A1, A2, A3.
  assert (OB : forall k, obj st1 k = obj st k) by (intros k; unfold obj; rewrite A1; auto).
  assert (PS : forall x, In x (passive st1) <-> In x (passive st) /\ x <> i) by (intros x; rewrite A2; apply remove_in).
  destruct (IH st1) as (st' & R' & C1 & C2 & C3 & C4 & C5 & C6 & C7 & C8 & C9).
  - intros g. eapply tracked_ext; [|apply T1]. intros k OC. rewrite OB in OC. unfold vis. rewrite PS. split; intros [X Y]; split; auto.
    + intros ->. apply Y. auto.
    + intros [-> _]. auto.
  - intros k Hk. rewrite OB. apply G. apply PS in Hk. tauto.
  - auto.
  - intros x Hx. apply PS. split; [apply I; right; auto|]. intros ->. auto.
  - rewrite A2. apply remove_nodup. auto.
  - exists st'. split; auto. split; [congruence|]. split; [rewrite C2, A3, <- app_assoc; reflexivity|]. split; [|split; [|split; [auto|split; [|split; [|split]]]]]; auto.
    + rewrite (remove_perm i (passive st) NP II). cbn. apply perm_skip. rewrite <- A2. exact C3.
    + intros x. rewrite C4, PS. cbn. split; [intros [[X Y] Z]; split; auto; intros [W|W]; auto|intros [X Y]; split; [split; auto|]; intros W; apply Y; auto].
    + eapply blocks_trans; [|exact C6]. exact B.
    + intros g. rewrite C9. apply NN.
Qed.

Lemma add_clause_spec st c : (forall g, tracked E st (vis st) g) -> (forall i, In i (passive st) -> i < length (objs st)) -> gc E c ->
  let st' := add_clause E heur st c in
  objs st' = objs st ++ [normalize E c] /\ passive st' = passive st ++ [length (objs st)] /\ archive st' = archive st /\ (forall g, tracked E st' (vis st') g)
  /\ blocks st st' /\ (queued st -> queued st') /\ (keyed st -> keyed st') /\ (forall g, tasks st' g <> None -> tasks st g <> None \/ occurs g (normalize E c)).
Proof.
  intros T L G. cbv zeta. unfold add_clause. pose proof (norm_gc E HE c G) as GN.
  set (st1 := insert st (normalize E c)).
  assert (O1 : obj st1 (length (objs st)) = normalize E c) by (unfold obj, st1; cbn; rewrite app_nth2, Nat.sub_diag by lia; reflexivity).
  assert (O2 : forall i, i < length (objs st) -> obj st1 i = obj st i) by (intros i H; unfold obj, st1; cbn; apply app_nth1; auto).
  assert (T1 : forall g, tracked E st1 (vis st) g).
  { intros g. specialize (T g). unfold tracked in *. change (tasks st1 g) with (tasks st g). destruct (tasks st g) as [t|].
    - destruct T as [PF [B|(A1 & A2 & A3 & A4 & A5 & A6 & A7)]]; split; auto. right. split; auto. split; auto. split; auto.
      split; [|split; [|split; auto]]; intros i; [rewrite A4|rewrite A5|rewrite A6]; split; intros [V X]; split; auto; pose proof (L i V) as LI; rewrite ?(O2 i LI) in *; auto.
    - intros i V. rewrite (O2 i (L i V)). apply T. auto. }
  destruct (scan_spec E heur (length (objs st)) (normalize E c) st1 GN O1 (vis st) T1) as (S1 & S2 & S3). cbv zeta in *. destruct S1 as ((R1 & R2 & R3) & B & Q & K & _).
  split; [rewrite R1; reflexivity|]. split; [rewrite R2; reflexivity|]. split; [rewrite R3; reflexivity|]. split; [|split; [exact B|split; [exact Q|split; [exact K|exact S3]]]].
  intros g. eapply tracked_ext; [|apply S2]. intros i _. unfold vis. rewrite R2. cbn. rewrite in_app_iff. cbn. split; [intros [X|X]; auto|intros [X|[X|[]]]; auto].
Qed.
Lemma add_all_spec : forall cls st, (forall g, tracked E st (vis st) g) -> (forall i, In i (passive st) -> i < length (objs st)) -> (forall c, In c cls -> gc E c) ->
  let st' := fold_left (add_clause E heur) cls st in
  objs st' = objs st ++ map (normalize E) cls /\ passive st' = passive st ++ seq (length (objs st)) (length cls) /\ archive st' = archive st /\ (forall g, tracked E st' (vis st') g)
  /\ blocks st st' /\ (queued st -> queued st') /\ (keyed st -> keyed st') /\ (forall g, tasks st' g <> None -> tasks st g <> None \/ exists c, In c cls /\ occurs g (normalize E c)).
Proof.
  induction cls as [|c cls IH]; intros st T L G; cbn [fold_left].
  { cbn. rewrite !app_nil_r. split; auto. split; auto. split; auto. split; auto. split; [apply blocks_refl|]. auto. }
  destruct (add_clause_spec st c T L (G c ltac:(left; auto))) as (A1 & A2 & A3 & A4 & A5 & A6 & A7 & A8). cbv zeta in *.
  destruct (IH (add_clause E heur st c) A4) as (B1 & B2 & B3 & B4 & B5 & B6 & B7 & B8).
  - intros i. rewrite A1, A2, app_length, in_app_iff. cbn. intros [X|[X|[]]]; [apply L in X; lia|lia].
  - intros d Hd. apply G. right. auto.
  - rewrite A1, A2, A3 in *. rewrite app_length in B2. cbn [length] in B2. rewrite Nat.add_1_r in B2.
    split; [rewrite B1, <- app_assoc; reflexivity|]. split; [rewrite B2, <- app_assoc; reflexivity|]. split; auto. split; auto. split; [eapply blocks_trans; eauto|]. split; auto. split; auto.
    intros g X. destruct (B8 g X) as [Y|(d & Id & Od)]; [destruct (A8 g Y) as [Z|Z]; auto; right; exists c; split; auto; left; auto|right; exists d; split; auto; right; auto].
Qed.

Lemma ok_ticked eq st : ok_state eq st -> ok_state eq (ticked st).
Proof. intros H. constructor; apply H. Qed.
Lemma ok_pop eq st f st1 : ok_state eq st -> pop heur st = Some (f, st1) -> ok_state eq st1 /\ In f (queue st) /\ objs st1 = objs st /\ passive st1 = passive st /\ archive st1 = archive st /\ tasks st1 = tasks st
  /\ keys st1 = keys st /\ length (queue st1) < length (queue st).
Proof.
  intros H. unfold pop. destruct (queue st) as [|g q] eqn:Q; [discriminate|]. rewrite <- Q.
  assert (LI : Nat.modulo (heur (tick st)) (length (queue st)) < length (queue st)) by (apply Nat.mod_upper_bound; rewrite Q; discriminate).
  revert LI. generalize (Nat.modulo (heur (tick st)) (length (queue st))). intros i LI X. injection X as <- <-. clear Q.
  split; [|split; [apply nth_In; auto|]].
  - constructor; try apply H. destruct (os_queue eq st H) as [N Qu]. split.
    + cbn [queue ticked set_queue]. clear - N. revert i. induction (queue st) as [|x l IH]; intros [|i]; cbn; auto; inversion N; subst; auto. constructor; auto. intros X. apply except_in in X. auto.
    + cbn [queue ticked set_queue tasks]. intros x Hx. apply Qu. eapply except_in; eauto.
  - split; [reflexivity|]. split; [reflexivity|]. split; [reflexivity|]. split; [reflexivity|]. split; [reflexivity|]. cbn [queue ticked set_queue].
    clear - LI. revert i LI. induction (queue st) as [|x l IH]; intros [|i] LI; cbn in *; try lia. specialize (IH i ltac:(lia)). lia.
Qed.

Definition sat_in (M : structure) (st : pstate) : Prop := forall i, In i (passive st) -> clause_true SS M (obj st i).
Record simulates (st st' : pstate) : Prop := {
  sm_objs : exists ext, objs st' = objs st ++ ext;
  sm_fwd : forall M, model_ok SS (dist E) M -> sat_in M st -> sat_in M st';
  sm_bwd : (exists M, model_ok SS (dist E) M /\ sat_in M st') -> exists M, model_ok SS (dist E) M /\ sat_in M st;
  sm_occ : forall g i, In i (passive st') -> occurs g (obj st' i) -> exists k, In k (passive st) /\ occurs g (obj st k);
  sm_arch : incl (archive st) (archive st') }.
Lemma simulates_refl st : simulates st st.
Proof. constructor; eauto; [exists []; rewrite app_nil_r; auto|apply incl_refl]. Qed.
Lemma simulates_trans a b c : simulates a b -> simulates b c -> simulates a c.
Proof.
  intros A B. constructor.
  - destruct (sm_objs _ _ A) as [e1 H1]. destruct (sm_objs _ _ B) as [e2 H2]. exists (e1 ++ e2). rewrite H2, H1, app_assoc. auto.
  - intros M HM H. apply (sm_fwd _ _ B); auto. apply (sm_fwd _ _ A); auto.
  - intros H. apply (sm_bwd _ _ A), (sm_bwd _ _ B), H.
  - intros g i I O. destruct (sm_occ _ _ B g i I O) as (k & Ik & Ok). apply (sm_occ _ _ A g k Ik Ok).
  - intros x Hx. apply (sm_arch _ _ B), (sm_arch _ _ A), Hx.
Qed.

Lemma elim_step wf eq st f t cls arch : ok_state eq st -> tasks st f = Some t -> blocked t = false -> off t = [] ->
  new_clauses E alt eno max_neg n wf eq st f t = Some (cls, arch) ->
  arch = [] /\ exists st3, remove_clauses heur st f t = Some st3 /\ let st4 := fold_left (add_clause E heur) (rev cls) st3 in
    ok_state eq st4 /\ simulates st st4 /\ blocks (set_task st f (block t)) st4 /\ (forall g, tasks st4 g <> None <-> tasks st g <> None).
Proof.
  intros OS TF BL OF NC. pose proof (os_track eq st OS f) as TR. unfold tracked in TR. rewrite TF in TR. destruct TR as [PF [X|(A1 & A2 & A3 & A4 & A5 & A6 & A7 & A8 & A9)]]; [congruence|].
  unfold new_clauses in NC. rewrite A1 in NC. destruct (singular E eno max_neg n (resolver E alt n eq) st f (ps t) (ns t)) as [cl|] eqn:SI; [|discriminate]. injection NC as <- <-. split; auto.
  destruct (singular_spec _ _ _ _ _ _ SI) as [RES PROV]. unfold remove_clauses. rewrite A2, A3, OF. cbn [List.app]. rewrite app_nil_r.
  set (st0 := set_task st f (block t)). set (is := rev (ps t ++ ns t)).
  assert (PSP : forall i, In i (ps t) -> In i (passive st) /\ gc E (obj st i) /\ over base (obj st i) /\ sgn f true (obj st i)).
  { intros i I. apply A4 in I. destruct I as [V S]. destruct (os_good eq st OS i V). auto. }
  assert (NSP : forall i, In i (ns t) -> In i (passive st) /\ gc E (obj st i) /\ over base (obj st i) /\ sgn f false (obj st i)).
  { intros i I. apply A5 in I. destruct I as [V S]. destruct (os_good eq st OS i V). auto. }
  assert (ISI : forall x, In x is <-> In x (ps t) \/ In x (ns t)) by (intros x; unfold is; rewrite <- in_rev, in_app_iff; reflexivity).
  assert (OTH : forall i, In i (passive st) -> ~ In i is -> ~ occurs f (obj st i)).
  { intros i V NI OC. apply occurs_cases in OC. rewrite ISI in NI. destruct OC as [X|[X|X]]; [apply NI; left; apply A4|apply NI; right; apply A5|]; [split; auto..|].
    assert (Y : In i (off t)) by (apply A6; split; auto). rewrite OF in Y. destruct Y. }
  assert (T0 : forall g, tracked E st0 (vis st0) g).
  { intros g. unfold tracked, st0. cbn. destruct (Nat.eqb_spec g f) as [->|NE]; [split; auto; left; reflexivity|]. apply (os_track eq st OS g). }
  pose proof (os_nodup eq st OS) as ND. assert (NDP : NoDup (passive st)) by (apply nodup_left in ND; auto).
  destruct (remove_all_spec is st0 T0) as (st3 & R & C1 & C2 & C3 & C4 & C5 & C6 & C7 & C8 & C9).
  { intros i I. apply (os_good eq st OS i I). }
  { unfold is. apply NoDup_rev, nodup_app; auto. intros x Hx Hy. apply PSP in Hx. apply NSP in Hy. assert (true = false) by (apply (sgn_fun f true false (obj st x)); tauto). discriminate. }
  { intros x Hx. apply ISI in Hx. destruct Hx as [Hx|Hx]; [apply PSP in Hx|apply NSP in Hx]; tauto. }
  { exact NDP. }
  exists st3. split; [exact R|]. cbv zeta. change (objs st0) with (objs st) in C1. change (archive st0) with (archive st) in C2. change (passive st0) with (passive st) in C3, C4.
  assert (SP : forall i k, In i (ps t) -> In k (ns t) -> exists o, resolver E alt n eq (obj st i) (obj st k) f = Some o
      /\ (forall r, o = Some r -> (taut E eno max_neg n r = Some true \/ In r cl) /\ good_resolvent E f (obj st i) (obj st k) r /\ (eq = false -> atoms_only r))
      /\ (eq = true -> exists r, o = Some r /\ forall M, model_ok SS (dist E) M -> clause_true SS M r -> covers E M f (obj st i) (obj st k))
      /\ (eq = false -> forall A, (forall r, o = Some r -> clause_true SS (tm E A) r) -> covers E (tm E A) f (obj st i) (obj st k))).
  { intros i k Ii Ik. destruct (RES i k Ii Ik) as (o & RO & TA). destruct (PSP i Ii) as (V1 & G1 & O1 & S1). destruct (NSP k Ik) as (V2 & G2 & O2 & S2). exists o. split; auto.
    unfold resolver in RO. destruct eq.
    - destruct (eq_spec E alt base HE HF HFS HA n _ _ f o G1 G2 O2 (proj1 PF) RO) as (r & -> & GR & CV). split; [|split; [eauto|discriminate]]. intros r' Hr. injection Hr as <-. split; auto. split; auto. discriminate.
    - destruct (neq_spec E alt base HE HF HFS HA n _ _ f o G1 G2 O2 (proj1 PF) RO) as (GR & CV). split; [|split; [discriminate|auto]]. intros r Hr. destruct (GR r Hr) as [X Y]. split; auto. split; auto.
      intros _. apply Y; apply (os_atoms false st OS eq_refl); auto. }
  assert (CLS : forall r, In r cl -> exists i k, In i (ps t) /\ In k (ns t) /\ good_resolvent E f (obj st i) (obj st k) r /\ (eq = false -> atoms_only r)).
  { intros r Hr. destruct (PROV r Hr) as (i & k & Ii & Ik & RR). destruct (SP i k Ii Ik) as (o & RO & X & _). rewrite RR in RO. injection RO as <-. destruct (X r eq_refl) as (_ & Y & Z). exists i, k. auto. }
  assert (CO : forall r g, In r cl -> occurs g (normalize E r) -> g <> f /\ exists k, In k (passive st) /\ occurs g (obj st k)).
  { intros r g Hr [e' [Ie Ae]]. destruct (CLS r Hr) as (i & k & Ii & Ik & (GR & FR & _) & _). destruct (norm_atoms E HE r g e' GR Ie Ae) as (e & Ie' & Ae').
    destruct (PSP i Ii) as (V1 & G1 & _ & S1). destruct (NSP k Ik) as (V2 & G2 & _ & S2).
    destruct (sgn_find f true _ G1 PF S1) as (j1 & L1 & la & FJ & NL & _ & _ & _ & NO1). destruct (sgn_find f false _ G2 PF S2) as (j2 & L2 & lb & FK & NK & _ & _ & _ & NO2).
    destruct (FR j1 j2 FJ FK g e Ie' Ae') as (e0 & I0 & A0). split.
    - intros ->. destruct I0 as [I0|I0]; [apply NO1|apply NO2]; exists e0; auto.
    - destruct I0 as [I0|I0]; [exists i|exists k]; split; auto; exists e0; split; auto; eapply except_in; eauto. }
  destruct (add_all_spec (rev cl) st3 C5) as (B1 & B2 & B3 & B4 & B5 & B6 & B7 & B8).
  { intros i Hi. rewrite C1. apply (os_lt eq st i OS). left. apply C4 in Hi. tauto. }
  { intros c Hc. apply in_rev in Hc. destruct (CLS c Hc) as (i & k & _ & _ & (GR & _) & _). auto. }
  cbv zeta in *. set (st4 := fold_left (add_clause E heur) (rev cl) st3) in *.
  (** the clauses of the new state *)
  assert (OLD : forall i, i < length (objs st) -> obj st4 i = obj st i) by (intros i H; unfold obj; rewrite B1, C1; apply app_nth1; auto).
  assert (CASES : forall i, In i (passive st4) -> (In i (passive st) /\ ~ In i is /\ obj st4 i = obj st i) \/ exists r, In r cl /\ obj st4 i = normalize E r).
  { intros i Hi. rewrite B2 in Hi. apply in_app_iff in Hi. destruct Hi as [Hi|Hi].
    - left. apply C4 in Hi. destruct Hi as [V NI]. split; auto. split; auto. apply OLD. apply (os_lt eq st i OS). auto.
    - right. apply in_seq in Hi. rewrite C1 in Hi. unfold obj. rewrite B1, C1, app_nth2 by lia.
      assert (LT : i - length (objs st) < length (rev cl)) by lia. exists (nth (i - length (objs st)) (rev cl) []). split; [apply in_rev, nth_In; auto|]. rewrite (nth_indep _ [] (normalize E [])) by (rewrite map_length; auto). apply map_nth. }
  assert (NEW : forall r, In r cl -> exists i, In i (passive st4) /\ obj st4 i = normalize E r).
  { intros r Hr. apply in_rev in Hr. apply (In_nth _ _ []) in Hr. destruct Hr as (k & Lk & Nk). exists (length (objs st) + k). split.
    - rewrite B2. apply in_app_iff. right. rewrite C1. apply in_seq. lia.
    - unfold obj. rewrite B1, C1, app_nth2 by lia. replace (length (objs st) + k - length (objs st)) with k by lia. rewrite (nth_indep _ [] (normalize E [])) by (rewrite map_length; auto). rewrite map_nth, Nk. auto. }
  assert (KEPT : forall i, In i (passive st) -> ~ In i is -> In i (passive st4) /\ obj st4 i = obj st i).
  { intros i V NI. split; [rewrite B2; apply in_app_iff; left; apply C4; auto|]. apply OLD. apply (os_lt eq st i OS). auto. }
  assert (OCC : forall g i, In i (passive st4) -> occurs g (obj st4 i) -> exists k, In k (passive st) /\ occurs g (obj st k)).
  { intros g i Hi OC. destruct (CASES i Hi) as [(V & _ & Q)|(r & Hr & Q)]; rewrite Q in OC; [eauto|]. apply (CO r g Hr OC). }
  assert (OS4 : ok_state eq st4).
  { constructor; auto.
    - apply B6, C7. destruct (os_queue eq st OS) as [N Qu]. split; auto. cbn. intros g Hg. destruct (Nat.eqb_spec g f) as [->|NE]; [exists (block t); auto|apply Qu; auto].
    - apply B7, C8. apply set_task_keyed. apply OS.
    - assert (PM : Permutation (passive st3 ++ archive st ++ is) (seq 0 (length (objs st)))).
      { transitivity ((is ++ passive st3) ++ archive st); [|rewrite <- C3; apply (os_part eq st OS)]. rewrite app_assoc, <- (app_assoc is). apply Permutation_app_comm. }
      rewrite B1, B2, B3, C1, C2, app_length, map_length, seq_app. cbn [Nat.add]. rewrite <- app_assoc. rewrite (Permutation_app_comm (seq (length (objs st)) _)). rewrite app_assoc. apply Permutation_app; auto.
    - intros i Hi. destruct (CASES i Hi) as [(V & _ & ->)|(r & Hr & ->)]; [apply (os_good eq st OS i V)|]. destruct (CLS r Hr) as (i' & k' & _ & _ & (GR & _) & _). split; [apply norm_gc; auto|apply norm_over; auto].
    - intros Q i Hi. destruct (CASES i Hi) as [(V & _ & ->)|(r & Hr & ->)]; [apply (os_atoms eq st OS Q i V)|]. destruct (CLS r Hr) as (i' & k' & _ & _ & (GR & _) & AO). apply norm_atoms_only; auto.
    - intros i Hi. rewrite B3, C2 in Hi. apply in_app_iff in Hi. destruct Hi as [Hi|Hi].
      + destruct (os_arch eq st OS i Hi) as (g & OG & NG). exists g. split; [rewrite OLD; auto; apply (os_lt eq st i OS); auto|]. intros k Hk OC. destruct (OCC g k Hk OC) as (k' & Vk & Ok). apply (NG k' Vk Ok).
      + exists f. assert (SO : In i (passive st) /\ occurs f (obj st i)).
        { apply ISI in Hi. destruct Hi as [Hi|Hi]; [destruct (PSP i Hi) as (V & _ & _ & S)|destruct (NSP i Hi) as (V & _ & _ & S)]; split; auto; eapply sgn_occurs; eauto. }
        split; [rewrite OLD; [apply SO|]; apply (os_lt eq st i OS); left; apply SO|]. intros k Hk OC. destruct (CASES k Hk) as [(V & NI & Q)|(r & Hr & Q)]; rewrite Q in OC; [apply (OTH k V NI OC)|]. destruct (CO r f Hr OC) as [X _]. auto. }
  split; [exact OS4|]. split; [|split].
  2:{ eapply blocks_trans; eauto. }
  2:{ intros g. assert (Z : tasks st0 g <> None <-> tasks st g <> None) by (unfold st0; cbn; destruct (Nat.eqb_spec g f) as [->|]; [rewrite TF; split; discriminate|reflexivity]). split.
      - intros X. destruct (B8 g X) as [Y|(c & Ic & OC)]; [apply Z, C9, Y|]. apply in_rev in Ic. destruct (CO c g Ic OC) as (_ & k & Vk & Ok). pose proof (os_track eq st OS g) as TG. unfold tracked in TG.
        destruct (tasks st g); [discriminate|]. destruct (TG k Vk Ok).
      - intros X. apply Z, C9 in X. destruct (tasks st3 g) as [t3|] eqn:T3; [|congruence]. destruct (B5 g t3 T3) as (t4 & T4 & _). congruence. }
  constructor; auto.
  - exists (map (normalize E) (rev cl)). rewrite B1, C1. auto.
  - intros M HM SA i Hi. destruct (CASES i Hi) as [(V & _ & ->)|(r & Hr & ->)]; [apply SA; auto|]. destruct (CLS r Hr) as (i' & k' & Ii & Ik & (GR & _ & SO) & _).
    apply (norm_true E HE M r HM GR). apply SO; auto; apply SA; [apply PSP|apply NSP]; auto.
  - intros [M [HM SA]].
    assert (ALLR : forall M1, model_ok SS (dist E) M1 -> sat_in M1 st4 -> forall i k o r, In i (ps t) -> In k (ns t) -> resolver E alt n eq (obj st i) (obj st k) f = Some o -> o = Some r -> clause_true SS M1 r).
    { intros M1 HM1 SA1 i k o r Ii Ik RO Hr. destruct (SP i k Ii Ik) as (o' & RO' & X & _). rewrite RO in RO'. injection RO' as <-. destruct (X r Hr) as ([TT|IR] & (GR & _) & _).
      - apply (taut_true r M1 (proj1 GR) TT HM1).
      - destruct (NEW r IR) as (i4 & I4 & O4). apply (norm_true E HE M1 r HM1 GR). rewrite <- O4. apply SA1. auto. }
    assert (COV : exists M1, model_ok SS (dist E) M1 /\ sat_in M1 st4 /\ forall i k, In i (ps t) -> In k (ns t) -> covers E M1 f (obj st i) (obj st k)).
    { assert (EQ : eq = true \/ eq = false) by (destruct eq; auto). destruct EQ as [EQ|EQ].
      - exists M. split; auto. split; auto. intros i k Ii Ik. destruct (SP i k Ii Ik) as (o & RO & _ & X & _). destruct (X EQ) as (r & Hr & CV). apply CV; auto. eapply ALLR; eauto.
      - destruct (model_atoms E M (map (obj st4) (passive st4)) HM) as [A HA'].
        { intros c Hc. apply in_map_iff in Hc. destruct Hc as [i [<- Hi]]. apply SA. auto. }
        { intros c Hc. apply in_map_iff in Hc. destruct Hc as [i [<- Hi]]. apply (os_atoms eq st4 OS4 EQ i Hi). }
        assert (SAT : sat_in (tm E A) st4).
        { intros i Hi. destruct (os_good eq st4 OS4 i Hi) as [[GO GF] _]. apply (tm_clause E HF A (obj st4 i) GO GF (os_atoms eq st4 OS4 EQ i Hi)). apply HA'. apply in_map. auto. }
        exists (tm E A). split; [apply (tm_ok E HE HF)|]. split; auto. intros i k Ii Ik. destruct (SP i k Ii Ik) as (o & RO & _ & _ & X). apply (X EQ A). intros r Hr. apply (ALLR (tm E A) (tm_ok E HE HF A) SAT i k o r Ii Ik RO Hr). }
    destruct COV as (M1 & HM1 & SA1 & CV).
    destruct (davis_putnam M1 f (map (obj st) (filter (fun i => negb (has i is)) (passive st))) (map (obj st) (ps t)) (map (obj st) (ns t)) HM1 PF) as (M' & HM' & SA').
    + intros c Hc. apply in_map_iff in Hc. destruct Hc as [i [<- Hi]]. apply filter_In in Hi. destruct Hi as [V NI]. apply negb_true_iff in NI. assert (NI' : ~ In i is) by (intros X; apply has_spec in X; congruence).
      split; [apply (os_good eq st OS i V)|]. split; [apply OTH; auto|]. destruct (KEPT i V NI') as [I4 O4]. rewrite <- O4. apply SA1. auto.
    + intros c Hc. apply in_map_iff in Hc. destruct Hc as [i [<- Hi]]. destruct (PSP i Hi) as (_ & X & _ & Y). auto.
    + intros c Hc. apply in_map_iff in Hc. destruct Hc as [i [<- Hi]]. destruct (NSP i Hi) as (_ & X & _ & Y). auto.
    + intros c d Hc Hd. apply in_map_iff in Hc. destruct Hc as [i [<- Hi]]. apply in_map_iff in Hd. destruct Hd as [k [<- Hk]]. auto.
    + exists M'. split; auto. intros i V. apply SA'. destruct (has i is) eqn:HI.
      * apply has_spec, ISI in HI. right. destruct HI as [HI|HI]; [left|right]; apply in_map; auto.
      * left. apply in_map, filter_In. rewrite HI. auto.
  - rewrite B3, C2. intros x Hx. apply in_app_iff. auto.
Qed.

Lemma queue_task eq st f : ok_state eq st -> In f (queue st) -> exists t, tasks st f = Some t /\ (blocked t = true \/ off t = []).
Proof. intros H. apply (os_queue eq st H). Qed.
Lemma eliminate_spec wf eq : forall fuel st st', ok_state eq st -> eliminate E alt eno max_neg n heur fuel wf eq st = Some st' -> ok_state eq st' /\ simulates st st' /\ queue st' = [].
Proof.
  induction fuel as [|fuel IH]; intros st st' OS H; cbn [eliminate] in H.
  { destruct (queue st) eqn:Q; [|discriminate]. injection H as <-. split; auto. split; auto. apply simulates_refl. }
  destruct (pop heur st) as [[f st1]|] eqn:P.
  2:{ injection H as <-. split; auto. split; [apply simulates_refl|]. unfold pop in P. destruct (queue st); [auto|discriminate]. }
  destruct (ok_pop eq st f st1 OS P) as (OS1 & IQ & O1 & O2 & O3 & O4 & O5 & _). destruct (queue_task eq st f OS IQ) as (t & TF & TB). rewrite O4, TF in H.
  assert (SM : simulates st st1).
  { assert (OB : forall i, obj st1 i = obj st i) by (intros i; unfold obj; rewrite O1; auto). constructor.
    - exists []. rewrite app_nil_r. auto.
    - intros M _ SA i. rewrite O2, OB. apply SA.
    - intros [M [HM SA]]. exists M. split; auto. intros i Hi. rewrite <- OB. apply SA. rewrite O2. auto.
    - intros g i. rewrite O2, OB. eauto.
    - rewrite O3. apply incl_refl. }
  destruct (blocked t) eqn:BL.
  { destruct (IH st1 st' OS1 H) as (A & B & C). split; auto. split; auto. eapply simulates_trans; eauto. }
  destruct TB as [TB|TB]; [discriminate|]. destruct (new_clauses E alt eno max_neg n wf eq st1 f t) as [[cls arch]|] eqn:NC; [|discriminate].
  assert (TF1 : tasks (ticked st1) f = Some t) by (cbn; rewrite O4; auto).
  destruct (elim_step wf eq (ticked st1) f t cls arch (ok_ticked eq st1 OS1) TF1 BL TB NC) as (-> & st3 & R & OS4 & S4 & _ & _). cbv zeta in *. cbn [fold_left] in H.
  destruct (yes heur st1).
  - rewrite R in H. destruct (IH _ st' OS4 H) as (A & B & C). split; auto. split; auto. eapply simulates_trans; [exact SM|]. eapply simulates_trans; [|exact B].
    destruct S4 as [X1 X2 X3 X4 X5]. constructor; auto.
  - destruct (IH _ st' (ok_ticked eq st1 OS1) H) as (A & B & C). split; auto. split; auto. eapply simulates_trans; [exact SM|]. destruct B as [X1 X2 X3 X4 X5]. constructor; auto.
Qed.

(** ** The beginning *)
Lemma scan_all_spec : forall is st vs, (forall i, In i is -> gc E (obj st i)) -> (forall g, tracked E st vs g) ->
  let st' := scan_all heur false st is in scanned st st' /\ forall g, tracked E st' (fun i g' => vs i g' \/ In i is) g.
Proof.
  induction is as [|i is IH]; intros st vs G T; cbn [scan_all].
  { split; [apply scanned_refl|]. intros g. apply (tracked_ext E st vs); auto. intros k _. cbn. tauto. }
  destruct (scan_spec E heur i (obj st i) st (G i ltac:(left; auto)) eq_refl vs T) as (A & B & _). cbv zeta in *. pose proof A as (SR & _).
  destruct (IH (scan heur false st i (obj st i)) _ ltac:(intros k Hk; rewrite (same_obj _ _ _ SR); apply G; right; auto) B) as (C & D).
  split; [eapply scanned_trans; eauto|]. intros g. eapply tracked_ext; [|apply D]. intros k _. cbn. split; intros X; [destruct X as [[X|X]|X]; auto|destruct X as [X|[X|X]]; auto].
Qed.
Variables (core : list clause -> option (list nat)) (pairs : list nat -> list nat -> list (nat * nat)).
Lemma build_spec N junk : Forall (clause_ok E) N -> Forall (fo_clause E) N -> Forall (over base) N ->
  exists st, build_queue E alt eno max_neg n heur core pairs false N = Some st /\ ok_state (has_equation N || junk) st /\ objs st = N /\ passive st = seq 0 (length N) /\ archive st = [].
Proof.
  intros NO NF NB. unfold build_queue. set (st0 := mkps N (seq 0 (length N)) [] (fun _ => None) [] [] 0). change (passive st0) with (seq 0 (length N)).
  assert (IN : forall i, In i (seq 0 (length N)) -> In (obj st0 i) N) by (intros i Hi; apply in_seq in Hi; unfold obj; cbn; apply nth_In; lia).
  rewrite Forall_forall in NO, NF, NB.
  assert (G : forall i, In i (seq 0 (length N)) -> gc E (obj st0 i)) by (intros i Hi; split; auto).
  destruct (scan_all_spec (seq 0 (length N)) st0 (fun _ _ => False) G) as ((SR & _ & Q & K & QI) & T). { intros g i []. }
  set (st1 := scan_all heur false st0 (seq 0 (length N))) in *. cbv zeta in *. destruct SR as (R1 & R2 & R3). cbn in R1, R2, R3.
  eexists. split; [reflexivity|]. split; [|split; [auto|split; auto]].
  assert (OB : forall i, obj st1 i = obj st0 i) by (intros i; unfold obj; rewrite R1; auto).
  assert (K1 : keyed st1). { apply K. split; [constructor|]. intros f. cbn. split; [intros []|congruence]. }
  assert (T1 : forall g, tracked E st1 (vis st1) g). { intros g. eapply tracked_ext; [|apply T]. intros i _. unfold vis. rewrite R2. tauto. }
  constructor.
  - exact T1.
  - split; [cbn; apply NoDup_filter; apply K1|]. cbn. intros f Hf. apply filter_In in Hf. destruct Hf as [_ Hf]. unfold schedulable in Hf. destruct (tasks st1 f) as [t|] eqn:TF; [|discriminate]. exists t. split; auto.
    specialize (T1 f). unfold tracked in T1. rewrite TF in T1. destruct T1 as [_ [B|(A1 & _)]]; auto. right. unfold can_schedule in Hf. rewrite A1 in Hf. destruct (off t); auto. discriminate.
  - exact K1.
  - cbn. rewrite R1, R2, R3, app_nil_r. auto.
  - cbn [passive set_queue]. intros i Hi. rewrite R2 in Hi. change (gc E (obj st1 i) /\ over base (obj st1 i)). rewrite OB. split; [apply G; auto|apply NB; auto].
  - cbn [passive set_queue]. intros EQ i Hi. rewrite R2 in Hi. change (atoms_only (obj st1 i)). rewrite OB. apply orb_false_iff in EQ. destruct EQ as [EQ _]. intros e He. destruct (equlit e) eqn:X; auto.
    assert (has_equation N = true); [|congruence]. apply existsb_exists. exists (obj st0 i). split; auto. apply existsb_exists. eauto.
  - cbn. rewrite R3. intros i [].
Qed.
End Step.

(** ** Termination *)
Section Total.
Variables (E : env) (alt : var -> var) (base : var -> Prop) (eno : term -> Z) (max_neg : nat) (heur : nat -> nat).
Notation SS := (srt E).
Hypotheses (HE : env_ok E) (HF : fo_sig E) (HFS : fo_sorts SS (pp E)) (HA : alt_ok E alt base) (HBa : forall s k, base (prim (fresh E s k)))
  (EI : forall s t, eno s = eno t -> s = t) (HT : forall c, gc E c -> settles (fun n => taut E eno max_neg n c)).

Lemma join_settles b P N j k : acyclic b -> settles (fun n => join_rests E n b P N j k).
Proof.
  intros HAc. destruct (acyclic_denotes b HAc) as [s HD].
  assert (G : forall l, exists r, eventually (fun n => mapo (eqn_map E n b) l) (Some r)).
  { intros l. apply (ev_mapo (fun n => eqn_map E n b)). intros e. destruct (ev_inst b s (lt e) HAc HD) as [u Hu]. destruct (ev_inst b s (rt e) HAc HD) as [w Hw].
    destruct (eventually_both _ _ _ _ Hu Hw) as [N0 HN]. eexists. exists N0. intros n Hn. destruct (HN n Hn) as [A1 A2]. unfold eqn_map. rewrite A1, A2. reflexivity. }
  destruct (G (rest j P)) as [x Hx]. destruct (G (rest k N)) as [y Hy]. destruct (eventually_both _ _ _ _ Hx Hy) as [N0 HN]. exists (finish E (x ++ y)), N0. intros n Hn.
  destruct (HN n Hn) as [A1 A2]. unfold join_rests. rewrite A1, A2. reflexivity.
Qed.
Lemma resolver_settles eq P N f : gc E P -> gc E N -> is_pred E f -> sgn f true P -> sgn f false N -> settles (fun n => resolver E alt n eq P N f).
Proof.
  intros GP GN PF SP SN. destruct (sgn_find E f true P GP PF SP) as (j & L & la & FJ & NL & _). destruct (sgn_find E f false N GN PF SN) as (k & K & lb & FK & NK & _).
  pose proof (img_disjoint E alt base HE HA P GP) as I1. pose proof (img_copy E HE N GN) as I2.
  assert (F1 : find_lit f (Some true) (disjoint E alt P) = Some j) by (rewrite (find_img (ren_alt alt) f (Some true) ltac:(intros x; exists (alt x); auto) _ _ I1); auto).
  assert (F2 : find_lit f (Some false) (map (lit_copy E) N) = Some k) by (rewrite (find_img Var f (Some false) ltac:(intros x; exists x; auto) _ _ I2); auto).
  assert (X1 : exists p, nth_error (disjoint E alt P) j = Some p /\ wf SS (lt p)).
  { unfold disjoint. rewrite nth_error_map, NL. cbn. eexists. split; [reflexivity|]. destruct (gc_in E _ (disjoint_lit E alt L) (gc_disjoint E alt base HE HA P GP)) as [(W & _) _]; auto.
    unfold disjoint. apply in_map. eapply nth_error_In; eauto. }
  assert (X2 : exists q, nth_error (map (lit_copy E) N) k = Some q /\ wf SS (lt q)).
  { rewrite nth_error_map, NK. cbn. eexists. split; [reflexivity|]. destruct (gc_in E _ (lit_copy E K) (gc_copy E HE N GN)) as [(W & _) _]; auto. apply in_map. eapply nth_error_In; eauto. }
  destruct X1 as (p & N1 & W1). destruct X2 as (q & N2 & W2).
  assert (G : forall t1 t2, wf SS t1 -> wf SS t2 -> exists r, eventually (fun n => mgu n SS (pp E) start t1 t2) r /\
     match r with Success st | Failure st => settles (fun n => join_rests E n (bnd st) (disjoint E alt P) (map (lit_copy E) N) j k) | _ => False end).
  { intros t1 t2 A B. destruct (ev_mgu E start t1 t2 (inv_empty _) A B) as [r [Hr HR]]. exists r. split; auto. destruct Hr as [M HM]. pose proof (mgu_correct M SS (pp E) start t1 t2 (inv_empty _) A B) as MC.
    rewrite (HM M (le_n _)) in MC. destruct r as [st|st| |]; auto; apply join_settles; [apply (inv_acyclic SS); apply MC|].
    destruct MC as (_ & MC & _). exists (fun _ => 0). intros x t y X. rewrite MC in X. discriminate. }
  destruct eq; cbn [resolver].
  - unfold eq_resolvent. rewrite F1, F2, N1, N2.
    assert (M : settles (fun n => match mgu n SS (pp E) start (lt p) (lt q) with Success st | Failure st => option_map Some (join_rests E n (bnd st) (disjoint E alt P) (map (lit_copy E) N) j k) | _ => None end)).
    { destruct (G (lt p) (lt q) W1 W2) as (r & Hr & HR). destruct r as [st|st| |]; try destruct HR as [R HR]; try contradiction; destruct (eventually_both _ _ _ _ Hr HR) as [N0 HN]; exists (Some R), N0; intros n Hn; destruct (HN n Hn) as [A1 A2]; rewrite A1, A2; reflexivity. }
    destruct (unique_distinct_vars (lt p)), (unique_distinct_vars (lt q)); auto. apply settles_ret.
  - unfold neq_resolvent. rewrite F1, F2, N1, N2. destruct (G (lt q) (lt p) W2 W1) as (r & Hr & HR). destruct r as [st|st| |]; try contradiction.
    + destruct HR as [R HR]. destruct (eventually_both _ _ _ _ Hr HR) as [N0 HN]. exists (Some R), N0. intros n Hn. destruct (HN n Hn) as [A1 A2]. rewrite A1, A2. reflexivity.
    + destruct Hr as [N0 HN]. exists None, N0. intros n Hn. rewrite (HN n Hn). reflexivity.
Qed.
Lemma mapo_settles {A B} (f : nat -> A -> option B) l : (forall a, In a l -> settles (fun n => f n a)) -> settles (fun n => mapo (f n) l).
Proof.
  induction l as [|a l IH]; intros H; [apply settles_ret|]. destruct (H a (or_introl eq_refl)) as [u Hu]. destruct IH as [r Hr]; [intros b Hb; apply H; right; auto|].
  destruct (eventually_both _ _ _ _ Hu Hr) as [N HN]. exists (u :: r), N. intros n Hn. destruct (HN n Hn) as [A1 A2]. simpl. rewrite A1, A2. reflexivity.
Qed.
Lemma new_settles wf eq st f t : ok_state E base eq st -> tasks st f = Some t -> blocked t = false -> settles (fun n => new_clauses E alt eno max_neg n wf eq st f t).
Proof.
  intros OS TF BL. pose proof (os_track E base eq st OS f) as TR. unfold tracked in TR. rewrite TF in TR. destruct TR as [PF [X|(A1 & A2 & A3 & A4 & A5 & A6 & _)]]; [congruence|].
  unfold new_clauses. rewrite A1.
  assert (M : settles (fun n => mapo (fun p => resolve_pair E eno max_neg n (resolver E alt n eq) f (obj st (fst p)) (obj st (snd p))) (all_pairs (ps t) (ns t)))).
  { apply (mapo_settles (fun n p => resolve_pair E eno max_neg n (resolver E alt n eq) f (obj st (fst p)) (obj st (snd p)))). intros [i k] Hp. cbn [fst snd].
    unfold all_pairs in Hp. apply in_flat_map in Hp. destruct Hp as [i' [Ii Hp]]. apply in_map_iff in Hp. destruct Hp as [k' [Q Ik]]. injection Q as -> ->. apply A4 in Ii. apply A5 in Ik.
    destruct (os_good E base eq st OS i (proj1 Ii)) as [G1 _]. destruct (os_good E base eq st OS k (proj1 Ik)) as [G2 O2].
    destruct (resolver_settles eq _ _ f G1 G2 PF (proj2 Ii) (proj2 Ik)) as [o [N0 HN]]. destruct o as [r|].
    - assert (GR : gc E r).
      { pose proof (HN N0 (le_n _)) as R. unfold resolver in R. destruct eq.
        - destruct (eq_spec E alt base HE HF HFS HA N0 _ _ f _ G1 G2 O2 (proj1 PF) R) as (r' & Q & (GR & _) & _). injection Q as ->. auto.
        - destruct (neq_spec E alt base HE HF HFS HA N0 _ _ f _ G1 G2 O2 (proj1 PF) R) as [X _]. destruct (X r eq_refl) as [(GR & _) _]. auto. }
      destruct (HT r GR) as [b [N1 HN1]]. exists (if b then [] else [r]), (Nat.max N0 N1). intros n Hn. unfold resolve_pair. rewrite (HN n ltac:(lia)), (HN1 n ltac:(lia)). destruct b; reflexivity.
    - exists [], N0. intros n Hn. unfold resolve_pair. rewrite (HN n Hn). reflexivity. }
  destruct M as [ls [N0 HN]]. exists (concat ls, []), N0. intros n Hn. unfold singular. rewrite (HN n Hn). reflexivity.
Qed.

Definition open (st : pstate) (f : sym) : bool := match tasks st f with Some t => negb (blocked t) | None => false end.
Definition meas (st : pstate) : nat := length (filter (open st) (keys st)) * S (length (keys st)) + length (queue st).
Lemma queue_le eq st : ok_state E base eq st -> length (queue st) <= length (keys st).
Proof.
  intros OS. apply NoDup_incl_length; [apply (os_queue E base eq st OS)|]. intros f Hf. destruct (queue_task E base eq st f OS Hf) as (t & TF & _). apply (os_keys E base eq st OS). congruence.
Qed.
Lemma eliminate_settles wf eq : forall m st, ok_state E base eq st -> meas st <= m ->
  exists st' N0, forall n fuel, N0 <= n -> m <= fuel -> eliminate E alt eno max_neg n heur fuel wf eq st = Some st'.
Proof.
  induction m as [m IH] using lt_wf_ind. intros st OS MS. destruct (pop heur st) as [[f st1]|] eqn:P.
  2:{ exists st, 0. intros n fuel _ _. destruct fuel; cbn [eliminate]; [|rewrite P; auto]. unfold pop in P. destruct (queue st); [auto|discriminate]. }
  destruct (ok_pop E base heur eq st f st1 OS P) as (OS1 & IQ & O1 & O2 & O3 & O4 & O5 & O6). destruct (queue_task E base eq st f OS IQ) as (t & TF & TB).
  assert (M1 : meas st1 < meas st). { unfold meas, open. rewrite O5, O4. lia. }
  assert (PRED : exists m', m = S m') by (destruct m; [lia|eauto]). destruct PRED as [m' ->].
  assert (FS : forall fuel, S m' <= fuel -> exists fuel', fuel = S fuel' /\ m' <= fuel') by (intros [|fuel'] X; [lia|exists fuel'; split; auto; lia]).
  destruct (blocked t) eqn:BL.
  - destruct (IH m' ltac:(lia) st1 OS1 ltac:(lia)) as (st' & N0 & H). exists st', N0. intros n fuel Hn Hf. destruct (FS fuel Hf) as (fuel' & -> & Hf'). cbn [eliminate]. rewrite P, O4, TF, BL. auto.
  - destruct TB as [TB|TB]; [discriminate|]. assert (TF1 : tasks (ticked st1) f = Some t) by (cbn; rewrite O4; auto). assert (TF1' : tasks st1 f = Some t) by (rewrite O4; auto).
    destruct (new_settles wf eq st1 f t OS1 TF1' BL) as [[cls arch] [N0 HN]].
    destruct (elim_step E alt base eno max_neg N0 heur HE HF HFS HA HBa EI wf eq (ticked st1) f t cls arch (ok_ticked E base eq st1 OS1) TF1 BL TB (HN N0 (le_n _))) as (-> & st3 & R & OS4 & S4 & B4 & K4). cbv zeta in *.
    destruct (yes heur st1) eqn:Y.
    + set (st4 := fold_left (add_clause E heur) (rev cls) st3) in *.
      assert (KL : length (keys st4) = length (keys st)).
      { destruct (os_keys E base eq st OS) as [N1 K1]. destruct (os_keys E base eq st4 OS4) as [N2 K2].
        apply Permutation_length, NoDup_Permutation; auto. intros g. rewrite K1, K2, K4. cbn. rewrite O4. reflexivity. }
      assert (UL : length (filter (open st4) (keys st4)) < length (filter (open st) (keys st))).
      { destruct (os_keys E base eq st OS) as [N1 K1]. destruct (os_keys E base eq st4 OS4) as [N2 K2]. destruct (B4 f (block t)) as (t4 & T4 & E4); [cbn; rewrite Nat.eqb_refl; auto|]. specialize (E4 eq_refl).
        assert (NF : open st4 f = false) by (unfold open; rewrite T4, E4; reflexivity).
        apply (NoDup_incl_length (l := f :: filter (open st4) (keys st4))).
        - constructor; [intros X; apply filter_In in X; destruct X; congruence|apply NoDup_filter; auto].
        - intros g [<-|Hg]; apply filter_In.
          + split; [apply K1; congruence|unfold open; rewrite TF, BL; auto].
          + apply filter_In in Hg. destruct Hg as [Hk Ho]. split; [apply K1; apply K2, K4 in Hk; cbn in Hk; rewrite O4 in Hk; auto|]. unfold open. destruct (Nat.eq_dec g f) as [->|NE]; [congruence|].
            assert (TG : tasks st g <> None) by (apply K2, K4 in Hk; cbn in Hk; rewrite O4 in Hk; auto). destruct (tasks st g) as [tg|] eqn:TS; [|congruence].
            destruct (B4 g tg) as (t4' & T4' & E4'); [cbn; destruct (Nat.eqb_spec g f); [contradiction|]; rewrite O4; auto|]. destruct (blocked tg) eqn:BG; auto. rewrite (E4' eq_refl) in T4'. unfold open in Ho. rewrite T4', BG in Ho. discriminate. }
      pose proof (queue_le eq st4 OS4) as QL. assert (M4 : meas st4 < meas st) by (unfold meas; rewrite KL in *; nia).
      destruct (IH m' ltac:(lia) st4 OS4 ltac:(lia)) as (st' & N1 & H). exists st', (Nat.max N0 N1). intros n fuel Hn Hf. destruct (FS fuel Hf) as (fuel' & -> & Hf'). cbn [eliminate].
      rewrite P, O4, TF, BL, (HN n ltac:(lia)). cbn [fold_left]. rewrite Y, R. fold st4. apply H; lia.
    + assert (MT : meas (ticked st1) < meas st) by exact M1.
      destruct (IH m' ltac:(lia) (ticked st1) (ok_ticked E base eq st1 OS1) ltac:(lia)) as (st' & N1 & H). exists st', (Nat.max N0 N1). intros n fuel Hn Hf. destruct (FS fuel Hf) as (fuel' & -> & Hf'). cbn [eliminate].
      rewrite P, O4, TF, BL, (HN n ltac:(lia)). cbn [fold_left]. rewrite Y. apply H; lia.
Qed.
End Total.
