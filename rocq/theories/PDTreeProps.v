(** * C21: retrieval from perfect discrimination trees *)
From Coq Require Import Permutation.
From Verif Require Import Terms Unify MatchProofs Clauses SubsumeProofs ExEnv Rewrite RewriteHist PDTree PDTreeProofs PDTreeSearch PDTreeRetrieve.

(** The iterator that PDTreeInsertTerm and PDTreeDelete use visits the symbols of the term from left to right. *)
Theorem C21_traversal_is_preorder t : exists N, forall n, N <= n -> lr_seq n [t] = Some (keys t).
Proof. exists (S (size t)). intros n H. rewrite lr_seq_flat; simpl; [rewrite app_nil_r; auto|lia]. Qed.

(** After any history of insertions, deletions and searches, the retrieval loop for a query term ends, leaves no variable
    bound, returns only entries that are currently stored and whose term matches the query (with the matching bindings in
    force: exactly the variables of the indexed term are bound, and instantiating it gives the query), and returns every
    such entry, except those that are not younger than the date given. *)
Theorem C21_retrieval {A} (aterm : A -> term) (aclause : A -> nat) (adate : A -> Z) rank use_size use_age S pp general date root L t :
  fo_sorts S pp -> history aterm aclause adate rank S root L -> wf S t ->
  exists N outs st', (forall n, N <= n -> retrieve aterm adate use_size use_age S pp general date n root t = Some (outs, st')) /\
    trail st' = [] /\ (forall x, bnd st' x = None) /\
    (forall e st, In (e, st) outs ->
       In e L /\ app (as_subst (bnd st)) (aterm e) = t /\ (forall x, bnd st x <> None <-> In x (vars (aterm e))) /\ wfsubst S (as_subst (bnd st))) /\
    (forall e s, In e L -> wfsubst S s -> app s (aterm e) = t -> (date = 0 \/ date < adate e)%Z -> exists st, In (e, st) outs).
Proof.
  intros FO H Wt. apply history_ok in H.
  destruct (retrieve_ok aterm aclause adate rank use_size use_age S pp general date root L t FO H) as [N [outs [st' [H1 [H2 [H3 [H4 H5]]]]]]].
  exists N, outs, st'. split; [exact H1|]. split; [exact H2|]. split; [exact H3|]. split; [|intros; eapply H5; eauto].
  intros e st Hi. destruct (H4 e st Hi) as [B1 B]. destruct (B Wt) as [B2 [B5 [B3 B4]]]. split; auto. split; auto. split; [|apply as_subst_wf; auto]. intros x. split; auto.
  intros Hx. destruct (in_dec Nat.eq_dec x (vars (aterm e))); auto. destruct Hx. auto.
Qed.

(** The answers do not depend on the constraints, on the order of the alternatives or on the preference setting: whatever
    they are, an entry is returned or not returned for the same reason. *)
Theorem C21_returned_entries {A} (aterm : A -> term) (aclause : A -> nat) (adate : A -> Z) rank use_size use_age S pp general root L t e :
  fo_sorts S pp -> history aterm aclause adate rank S root L -> wf S t ->
  exists N outs st', (forall n, N <= n -> retrieve aterm adate use_size use_age S pp general 0 n root t = Some (outs, st')) /\
    ((exists st, In (e, st) outs) <-> In e L /\ exists s, wfsubst S s /\ app s (aterm e) = t).
Proof.
  intros FO H Wt. pose proof (history_ok _ _ _ _ _ _ _ H) as T.
  destruct (retrieve_ok aterm aclause adate rank use_size use_age S pp general 0 root L t FO T) as [N [outs [st' [H1 [_ [_ [H4 H5]]]]]]].
  exists N, outs, st'. split; [exact H1|]. split.
  - intros [st Hi]. destruct (H4 e st Hi) as [B1 B]. destruct (B Wt) as [B2 [B5 [B3 B4]]]. split; auto.
    exists (as_subst (bnd st)). split; auto. apply as_subst_wf. auto.
  - intros [He [s [Ws Es]]]. apply (H5 e s); auto.
Qed.

(** The trees satisfy what the rewriting theorems (C14) ask of the search for demodulators. *)
Theorem C21_serves_rewriting E sg rank use_size use_age general aclause rules eqns R Q enum :
  fo_sorts (srt E) (pp E) -> history dkey aclause ddate rank (srt E) rules R -> history dkey aclause ddate rank (srt E) eqns Q ->
  (forall i t z, exists n outs st',
     retrieve dkey ddate use_size use_age (srt E) (pp E) general z n (match i with 0 => rules | _ => eqns end) t = Some (outs, st') /\
     enum i t z = map fst outs) ->
  enumerates E sg R Q enum.
Proof.
  intros FO HR HQ HE. apply history_ok in HR. apply history_ok in HQ.
  assert (HT : forall i, tree_ok dkey ddate (srt E) (match i with 0 => rules | _ => eqns end) (match i with 0 => R | _ => Q end)).
  { intros [|i]; auto. }
  assert (X : forall i t z, exists N outs st', (forall n, N <= n ->
      retrieve dkey ddate use_size use_age (srt E) (pp E) general z n (match i with 0 => rules | _ => eqns end) t = Some (outs, st')) /\
      enum i t z = map fst outs).
  { intros i t z. destruct (HE i t z) as [n [outs [st' [E1 E2]]]]. exists n, outs, st'. split; auto. intros m Hm.
    unfold retrieve in *. induction Hm as [|m Hm IH]; auto. apply collect_mono. exact IH. }
  split.
  - intros i t z d Hd. destruct (X i t z) as [N [outs [st' [E1 E2]]]]. rewrite E2 in Hd. apply in_map_iff in Hd. destruct Hd as [[e st] [<- Hd]].
    destruct (retrieve_ok dkey aclause ddate rank use_size use_age (srt E) (pp E) general z _ _ t FO (HT i)) as [N' [outs' [st2 [H1 [_ [_ [H4 _]]]]]]].
    pose proof (E1 (N + N')) as E1'. rewrite (H1 (N + N')) in E1' by lia. specialize (E1' ltac:(lia)). assert (Eo : outs' = outs) by congruence. rewrite Eo in *. clear E1'.
    exact (proj1 (H4 e st Hd)).
  - intros i t z d s [Wt _] Hd Ws Es Hz. destruct (X i t z) as [N [outs [st' [E1 E2]]]].
    destruct (retrieve_ok dkey aclause ddate rank use_size use_age (srt E) (pp E) general z _ _ t FO (HT i)) as [N' [outs' [st2 [H1 [_ [_ [_ H5]]]]]]].
    pose proof (E1 (N + N')) as E1'. rewrite (H1 (N + N')) in E1' by lia. specialize (E1' ltac:(lia)). assert (Eo : outs' = outs) by congruence. rewrite Eo in *. clear E1'.
    destruct (H5 d s Wt Hd Ws Es (or_intror Hz)) as [st Hi]. rewrite E2. apply in_map_iff. exists (d, st). auto.
Qed.

(** ** Examples *)
(** entries: term, clause, date *)
Definition ent0 : Type := term * nat * Z.
Definition eterm (e : ent0) := fst (fst e).
Definition ecl (e : ent0) := snd (fst e).
Definition edate (e : ent0) := snd e.
Definition rank0 (k : key) : Z := match k with KF f => Z.of_nat f | KV x => Z.of_nat x end.
Notation ins0 := (pdt_insert eterm edate rank0).
Notation del0 := (pdt_delete ecl rank0).
Notation hist0 := (history eterm ecl edate rank0 S0).
Notation ret0 := (retrieve eterm edate true true S0 pp0).

Definition e1 : ent0 := (g0 X0 Y0, 1, 1%Z).
Definition e2 : ent0 := (g0 X0 X0, 2, 2%Z).
Definition e3 : ent0 := (g0 (f0 X0) b0, 3, 3%Z).
Definition e4 : ent0 := (X0, 4, 4%Z).
Definition e5 : ent0 := (g0 X0 Y0, 5, 5%Z).
Definition tree0 := del0 (ins0 (ins0 (ins0 (ins0 (ins0 node_alloc e1) e2) e3) e4) e5) (g0 X0 Y0) 1 1%Z.

Lemma hist_ins n L (e : ent0) : hist0 n L -> wfb S0 (eterm e) = true -> (0 <=? edate e)%Z = true -> hist0 (ins0 n e) (e :: L).
Proof. intros H W D. apply h_insert; auto. apply Z.leb_le; auto. Qed.

(** A tree with five entries, one of them deleted again, meets the hypotheses of the theorems. *)
Example C21_ex_history : hist0 tree0 [e5; e4; e3; e2].
Proof.
  assert (H : hist0 (ins0 (ins0 (ins0 (ins0 (ins0 node_alloc e1) e2) e3) e4) e5) [e5; e4; e3; e2; e1]).
  { repeat (apply hist_ins; [|reflexivity|reflexivity]). constructor. }
  apply (h_delete _ _ _ _ _ _ _ (g0 X0 Y0) 1 1%Z) in H; [exact H|]. exists e1. split; [simpl; tauto|reflexivity].
Qed.

(** g(a,a) retrieves X, g(X,Y) of the remaining clause and g(X,X), not g(f(X),b); g(f(a),b) not g(X,X). *)
Example C21_ex_retrieve :
  option_map (fun r => map fst (fst r)) (ret0 false 0%Z 100 tree0 (g0 a0 a0)) = Some [e4; e4; e2; e2; e5; e5] /\
  option_map (fun r => map fst (fst r)) (ret0 false 0%Z 100 tree0 (g0 (f0 a0) b0)) = Some [e4; e4; e5; e5; e3; e3] /\
  option_map (fun r => map fst (fst r)) (ret0 false 4%Z 100 tree0 (g0 (f0 a0) b0)) = Some [e4; e5; e5].
Proof. vm_compute. auto. Qed.

Example C21_ex_serves_rewriting : wf S0 (g0 (f0 a0) b0) /\ app (fun x => match x with 0 => f0 a0 | 2 => b0 | _ => Var x end) (eterm e5) = g0 (f0 a0) b0.
Proof. split; reflexivity. Qed.

(** "Each entry is returned once" is false: when the search walks forward into a leaf it reports the leaf without closing it
    (ccl_pdtrees.c:1466-1474), so the next call reports the same leaf again (1461-1465). *)
Theorem C21_each_entry_once_refuted : exists (root : node) (L : list ent0) t n outs st',
  hist0 root L /\ NoDup L /\ wf S0 t /\ ret0 false 0%Z n root t = Some (outs, st') /\ ~ NoDup (map fst outs).
Proof.
  exists (ins0 node_alloc e3), [e3], (g0 (f0 a0) b0), 100. eexists. eexists. split; [|split; [|split; [|split]]].
  - apply hist_ins; try reflexivity. constructor.
  - repeat constructor. intros [].
  - reflexivity.
  - vm_compute. reflexivity.
  - simpl. intros H. inversion H as [|x l H1 H2]; subst. apply H1. simpl. auto.
Qed.

(** The histories above only delete terms that are indexed.  Deleting an unknown term leaves an empty branch behind
    (pdt_select_alt_ref creates the key), and the iteration over the branches ends there: stored entries are missed. *)
Theorem C21_delete_unknown_term_loses_entries_refuted : exists (root : node) (L : list ent0) t e s n st',
  hist0 root L /\ In e L /\ wf S0 t /\ wfsubst S0 s /\ app s (eterm e) = t /\
  ret0 false 0%Z n (del0 root (g0 X0 X0) 7 1%Z) t = Some ([], st').
Proof.
  set (e := (g0 Y0 Y0, 1, 1%Z) : ent0).
  exists (ins0 node_alloc e), [e], (g0 a0 a0), e, (fun _ => a0), 100. eexists. split; [|split; [|split; [|split; [|split]]]].
  - apply hist_ins; try reflexivity. constructor.
  - simpl. auto.
  - reflexivity.
  - intros x. split; reflexivity.
  - reflexivity.
  - vm_compute. reflexivity.
Qed.

(** The flag prefer_general of the search (set by the option --prefer-general-demodulators, "Prefer general
    demodulators") makes it try function symbols before variables: the more special entry comes first. *)
Theorem C21_prefer_general_returns_special_first_refuted : exists (root : node) (L : list ent0) t n e1' e2' outs st',
  hist0 root L /\ (exists s, app s (eterm e2') = eterm e1') /\ (forall s, app s (eterm e1') <> eterm e2') /\
  ret0 true 0%Z n root t = Some (outs, st') /\ hd_error (map fst outs) = Some e1' /\ In e2' (map fst outs).
Proof.
  exists tree0, [e5; e4; e3; e2], (g0 (f0 a0) b0), 100, e3, e4. eexists. eexists. split; [exact C21_ex_history|]. split; [|split; [|split; [|split]]].
  - exists (fun _ => g0 (f0 X0) b0). reflexivity.
  - intros s H. discriminate.
  - vm_compute. reflexivity.
  - reflexivity.
  - simpl. tauto.
Qed.

Print Assumptions C21_traversal_is_preorder.
Print Assumptions C21_retrieval.
Print Assumptions C21_returned_entries.
Print Assumptions C21_serves_rewriting.
Print Assumptions C21_each_entry_once_refuted.
Print Assumptions C21_delete_unknown_term_loses_entries_refuted.
Print Assumptions C21_prefer_general_returns_special_first_refuted.
