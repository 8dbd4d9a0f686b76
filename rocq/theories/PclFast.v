(** The fast extraction. *)

From Coq Require Import ZArith String Ascii List Bool Lia Arith Sorted
  Permutation.
From Verif Require Import Pcl PclSpec PclProofs PclMain.
Import ListNotations.
Local Open Scope Z_scope.

Lemma mfind_some : forall p i s, PCLMiniProtFindStep p i = Some s ->
  In s p /\ s_id s = [i].
Proof.
  intros p i s H. apply find_some in H. destruct H as [A B].
  apply eqid_iff in B. auto.
Qed.

Lemma mfind_known : forall p i s, NoDup (map s_id p) -> In s p ->
  s_id s = [i] -> PCLMiniProtFindStep p i = Some s.
Proof.
  intros p i s N A B. destruct (PCLMiniProtFindStep p i) as [x|] eqn:E.
  - apply mfind_some in E. f_equal. apply (same_id p); try tauto.
    destruct E. congruence.
  - exfalso. apply (find_none _ _ E) in A. rewrite B in A.
    assert (eqid [i] [i] = true) by (apply eqid_iff; reflexivity). congruence.
Qed.

Lemma mparse_ok : forall l p, numbered (l ++ m_steps p) -> 0 <= m_max p ->
  NoDup (map s_id (l ++ m_steps p)) ->
  (forall s k, In s (m_steps p) -> s_id s = [k] -> k <= m_max p) ->
  (m_max p = 0 \/ exists s, In s (m_steps p) /\ s_id s = [m_max p]) ->
  exists q, PCLMiniProtParse l p = Ok q /\ 0 <= m_max q /\
    Permutation (m_steps q) (l ++ m_steps p) /\
    (forall s k, In s (m_steps q) -> s_id s = [k] -> k <= m_max q) /\
    (m_max q = 0 \/ exists s, In s (m_steps q) /\ s_id s = [m_max q]).
Proof.
  induction l as [|s l IH]; intros p NU M0 ND MB MA.
  - exists p. cbn. auto.
  - cbn [PCLMiniProtParse app map] in *.
    destruct (NU s (or_introl eq_refl)) as [(n & N0 & EN) _].
    unfold PCLMiniProtInsertStep. rewrite EN. cbn [num].
    apply NoDup_cons_iff in ND. destruct ND as [ND1 ND2].
    destruct (PCLMiniProtFindStep (m_steps p) n) as [x|] eqn:E.
    { exfalso. apply mfind_some in E. destruct E as [E1 E2]. apply ND1.
      rewrite EN, <- E2. apply in_map. apply in_or_app. right. exact E1. }
    assert (PM : Permutation (l ++ s :: m_steps p) (s :: l ++ m_steps p)).
    { symmetry. apply Permutation_middle. }
    destruct (IH (mkmini (s :: m_steps p) (Z.max n (m_max p))))
      as (q & F & Q1 & Q2 & Q3 & Q4); cbn [m_steps m_max].
    + intros x H. apply NU. apply (Permutation_in x PM) in H. exact H.
    + lia.
    + apply (Permutation_NoDup (l := map s_id (s :: l ++ m_steps p))).
      * symmetry. apply Permutation_map. exact PM.
      * cbn. constructor; auto.
    + intros x k [H|H] G.
      * subst x. rewrite EN in G. injection G as <-. lia.
      * specialize (MB x k H G). lia.
    + destruct (Z.le_gt_cases n (m_max p)) as [L|L].
      * rewrite Z.max_r by lia. destruct MA as [MA|(x & A & B)]; auto.
        right. exists x. split; auto. right. exact A.
      * rewrite Z.max_l by lia. right. exists s. split; auto.
        left. reflexivity.
    + exists q. split; [exact F|]. split; [exact Q1|]. split; auto.
      cbn [m_steps] in Q2. rewrite Q2. exact PM.
Qed.

Lemma mparse_dup : forall l p, numbered (l ++ m_steps p) ->
  NoDup (map s_id (m_steps p)) ->
  ~ NoDup (map s_id (l ++ m_steps p)) -> PCLMiniProtParse l p = Error.
Proof.
  induction l as [|s l IH]; intros p NU NP ND; [contradiction|].
  cbn [PCLMiniProtParse app map] in *.
  destruct (NU s (or_introl eq_refl)) as [(n & N0 & EN) _].
  unfold PCLMiniProtInsertStep. rewrite EN. cbn [num].
  destruct (PCLMiniProtFindStep (m_steps p) n) as [x|] eqn:E; auto.
  assert (PM : Permutation (l ++ s :: m_steps p) (s :: l ++ m_steps p)).
  { symmetry. apply Permutation_middle. }
  apply IH; cbn [m_steps].
  - intros x H. apply NU. apply (Permutation_in x PM) in H. exact H.
  - cbn. constructor; auto. intros H. apply in_map_iff in H.
    destruct H as (x & A & B).
    rewrite (mfind_known (m_steps p) n x) in E; auto; congruence.
  - intros H. apply ND.
    apply (Permutation_NoDup (l := map s_id (l ++ s :: m_steps p))); auto.
    apply (Permutation_map s_id PM).
Qed.

Lemma find_all_ok : forall p is_,
  (forall i, In i is_ -> exists n s, i = [n] /\ PCLMiniProtFindStep p n = Some s) ->
  exists q, find_all p is_ = Ok q /\ length q = length is_ /\
    (forall x, In x q <-> exists i s, In i is_ /\ x = Some s /\
                          PCLMiniProtFindStep p (num i) = Some s).
Proof.
  induction is_ as [|i r IH]; intros H.
  - exists []. cbn. split; auto. split; auto. intros x. split; [intros []|].
    intros (? & ? & [] & _).
  - destruct (H i (or_introl eq_refl)) as (n & s & -> & E).
    destruct IH as (q & F & L & Q).
    { intros j J. apply H. right. exact J. }
    cbn [find_all num]. rewrite E, F. cbn [bind]. eexists.
    split; [reflexivity|]. split; [cbn; lia|].
    intros x. cbn [In]. rewrite Q. split.
    + intros [<-|(j & s' & A & B & C)].
      * exists [n], s. auto.
      * exists j, s'. auto.
    + intros (j & s' & [<-|A] & B & C).
      * left. cbn [num] in C. congruence.
      * right. exists j, s'. auto.
Qed.

Lemma last_length : forall fuel p i, (length (last_roots fuel p i) <= fuel)%nat.
Proof.
  induction fuel as [|n IH]; intros p i; cbn; auto.
  destruct (i <? 0); cbn; [lia|].
  destruct (PCLMiniProtFindStep p i) as [s|]; cbn; [|lia].
  destruct (PCLStepExtract (s_extra s)); cbn; [|lia].
  specialize (IH p (i - 1)). lia.
Qed.

Lemma last_roots_iff : forall p, NoDup (map s_id p) ->
  (forall s, In s p -> number_id (s_id s)) ->
  forall fuel i, i < Z.of_nat fuel ->
  forall s, In s (last_roots fuel p i) <->
    In s p /\ exists n, s_id s = [n] /\ n <= i /\
      forall m, n <= m <= i ->
        exists t, In t p /\ s_id t = [m] /\ flagged t.
Proof.
  intros p ND NU. induction fuel as [|f IH]; intros i L s.
  - cbn. split; [intros []|]. intros (A & n & B & C & _).
    destruct (NU s A) as (k & K & E). rewrite E in B. injection B as ->. lia.
  - cbn [last_roots]. destruct (i <? 0) eqn:C0.
    { apply Z.ltb_lt in C0. split; [intros []|]. intros (A & n & B & C & _).
      destruct (NU s A) as (k & K & E). rewrite E in B. injection B as ->. lia. }
    apply Z.ltb_ge in C0.
    destruct (PCLMiniProtFindStep p i) as [x|] eqn:E.
    2:{ split; [intros []|]. intros (A & n & B & C & D).
        destruct (D i) as (t & T1 & T2 & T3); [lia|].
        rewrite (mfind_known p i t) in E; auto. discriminate. }
    destruct (mfind_some _ _ _ E) as [X1 X2].
    destruct (PCLStepExtract (s_extra x)) eqn:F.
    + apply extract_iff in F. cbn [In]. rewrite IH by lia. split.
      * intros [<-|(A & n & B & C & D)].
        -- split; auto. exists i. split; auto. split; [lia|].
           intros m M. assert (m = i) by lia. subst m. exists x. auto.
        -- split; auto. exists n. split; auto. split; [lia|].
           intros m M. destruct (Z.eq_dec m i) as [->|G].
           ++ exists x. auto.
           ++ apply D. lia.
      * intros (A & n & B & C & D). destruct (Z.eq_dec n i) as [->|G].
        -- left. apply (same_id p); auto. congruence.
        -- right. split; auto. exists n. split; auto. split; [lia|].
           intros m M. apply D. lia.
    + split; [intros []|]. intros (A & n & B & C & D).
      destruct (D i) as (t & T1 & T2 & T3); [lia|].
      apply extract_iff in T3.
      assert (t = x) by (apply (same_id p); auto; congruence). congruence.
Qed.

Lemma array_in : forall p s, NoDup (map s_id (m_steps p)) ->
  numbered (m_steps p) ->
  (forall s k, In s (m_steps p) -> s_id s = [k] -> k <= m_max p) ->
  (In s (in_array p) <-> In s (m_steps p)).
Proof.
  intros p s ND NU MB. unfold in_array. rewrite in_flat_map. split.
  - intros (i & A & B).
    destruct (PCLMiniProtFindStep (m_steps p) i) as [x|] eqn:E; [|destruct B].
    destruct B as [<-|[]]. apply mfind_some in E. apply E.
  - intros A. destruct (NU s A) as [(n & N0 & EN) _].
    exists n. split.
    + unfold upto. apply in_map_iff. exists (Z.to_nat n). split; [lia|].
      apply in_seq. specialize (MB s n A EN). lia.
    + rewrite (mfind_known (m_steps p) n s); auto. left. reflexivity.
Qed.

Lemma array_sorted_from : forall p len from,
  sorted (flat_map (fun i => match PCLMiniProtFindStep p i with
                     | Some s => [s] | None => [] end)
            (map Z.of_nat (seq from len))).
Proof.
  intros p. induction len as [|n IH]; intros from; [constructor|].
  cbn [seq map flat_map].
  destruct (PCLMiniProtFindStep p (Z.of_nat from)) as [s|] eqn:E; [|apply IH].
  cbn [app]. unfold sorted. cbn [map]. constructor; [apply IH|].
  rewrite Forall_forall. intros i H. apply in_map_iff in H.
  destruct H as (x & <- & H). apply in_flat_map in H.
  destruct H as (k & A & B). apply in_map_iff in A. destruct A as (j & <- & A).
  apply in_seq in A.
  destruct (PCLMiniProtFindStep p (Z.of_nat j)) as [y|] eqn:F; [|destruct B].
  destruct B as [<-|[]]. apply mfind_some in E, F.
  rewrite (proj2 E), (proj2 F). apply lt_head. lia.
Qed.

Lemma fast_setup : forall l, numbered l -> NoDup (map s_id l) ->
  exists p mx, PCLMiniProtParse l (mkmini [] 0) = Ok (mkmini p mx) /\
    (forall x, In x l <-> In x p) /\ NoDup (map s_id p) /\ numbered p /\
    (forall s, In s (last_roots (S (Z.to_nat mx)) p mx) <->
               In s p /\ trailing l s) /\
    (forall s k, In s p -> s_id s = [k] -> k <= mx).
Proof.
  intros l NU ND.
  destruct (mparse_ok l (mkmini [] 0)) as (q & E & M0 & PE & MB & MA);
    cbn [m_steps m_max] in *; try rewrite app_nil_r in *; auto; try lia.
  { intros s k []. }
  destruct q as [p mx]. cbn [m_steps m_max] in *.
  assert (IN : forall x, In x l <-> In x p).
  { intros x. split; apply Permutation_in; [symmetry|]; exact PE. }
  assert (NDp : NoDup (map s_id p)).
  { apply (Permutation_NoDup (l := map s_id l)); auto.
    apply Permutation_map. symmetry. exact PE. }
  assert (NUp : numbered p) by (intros s H; apply NU; apply IN; exact H).
  assert (TR : forall s, In s (last_roots (S (Z.to_nat mx)) p mx) <->
                         In s p /\ trailing l s).
  { intros s. rewrite last_roots_iff; auto; try lia.
    2:{ intros x H. apply NUp. exact H. }
    split.
    - intros (A & n & B & C & D). split; auto. exists n. split; auto.
      intros m L (t & k & T1 & T2 & T3).
      destruct (D m) as (y & Y1 & Y2 & Y3).
      { split; auto. apply IN in T1. specialize (MB t k T1 T2). lia. }
      exists y. rewrite IN. auto.
    - intros (A & n & B & D). split; auto. exists n. split; auto.
      split; [apply (MB s n); auto|].
      intros m M. destruct (D m) as (y & Y1 & Y2 & Y3); [lia| |].
      2:{ exists y. rewrite <- IN. auto. }
      destruct MA as [MA|(t & T1 & T2)].
      + exists s, n. rewrite IN. split; auto. split; auto.
        destruct (NUp s A) as [(n' & N0 & EN) _].
        rewrite EN in B. injection B as ->. lia.
      + exists t, mx. rewrite IN. split; auto. split; auto. lia. }
  exists p, mx. split; [exact E|]. split; [exact IN|]. split; [exact NDp|].
  split; [exact NUp|]. split; [exact TR|exact MB].
Qed.

Lemma fast_ok : forall ord l, listing ord -> numbered l ->
  NoDup (map s_id l) -> resolved l (trailing l) ->
  exists o res, epclextract_fast ord l = Ok (o, res) /\ sorted o /\
    (forall s, In s o <-> needed l (trailing l) s) /\
    (res = true <-> exists s, In s o /\ refutation s).
Proof.
  intros ord l LI NU ND RE. unfold epclextract_fast.
  destruct (fast_setup l NU ND) as (p & mx & E & IN & NDp & NUp & TR & MB).
  rewrite E. cbn [bind].
  unfold PCLMiniProtMarkProofClauses. cbn [m_steps m_max].
  destruct (mark_ok ord LI (fun s => find_all p (refs (s_just s))) p NDp
              (trailing l)) with
    (fuel := (rounds p + S (Z.to_nat mx))%nat)
    (stack := rev (map Some (last_roots (S (Z.to_nat mx)) p mx)))
    as (m & r & F & M & R).
  - intros s N.
    assert (Nl : needed l (trailing l) s).
    { apply (needed_perm p l); auto. intros x. symmetry. apply IN. }
    assert (FD : forall i, In i (refs (s_just s)) ->
      exists n s', i = [n] /\ PCLMiniProtFindStep p n = Some s').
    { intros i H. apply refs_quotes in H.
      destruct (RE s i Nl H) as (s' & A & B).
      destruct (NU s' A) as [(n & N0 & EN) _].
      exists n, s'. split; [congruence|]. apply mfind_known; auto.
      apply IN. exact A. }
    destruct (find_all_ok p _ FD) as (q & Q1 & Q2 & Q3).
    exists q. split; auto. split; [|rewrite Q2; apply le_n].
    intros x. rewrite Q3. split.
    + intros (i & s' & A & B & C). exists s'. split; auto.
      destruct (FD i A) as (n & s2 & -> & _). cbn [num] in C.
      apply mfind_some in C. split; [apply C|].
      apply refs_quotes. rewrite (proj2 C). exact A.
    + intros (s' & -> & A & B). apply refs_quotes in B.
      exists (s_id s'), s'. split; auto. split; auto.
      destruct (FD _ B) as (n & s2 & G & _). rewrite G. cbn [num].
      apply mfind_known; auto.
  - intros x. rewrite <- in_rev, in_map_iff. split.
    + intros (s & <- & H). apply TR in H. exists s. tauto.
    + intros (s & -> & H). exists s. split; auto. apply TR. exact H.
  - rewrite rev_length, map_length. unfold rounds.
    pose proof (todo_bound p). pose proof (last_length (S (Z.to_nat mx)) p mx).
    lia.
  - rewrite F. cbn [bind].
    assert (OUT : forall s, In s (filter (marked m) (in_array (mkmini p mx))) <->
                            needed l (trailing l) s).
    { intros s. rewrite filter_In, array_in; auto. cbn [m_steps]. split.
      - intros [A B]. apply M in B; auto. apply (needed_perm p l); auto.
        intros x. symmetry. apply IN.
      - intros N. assert (A : In s p) by (apply IN; eapply needed_in; eauto).
        split; auto. apply M; auto. apply (needed_perm l p); auto. }
    do 2 eexists. split; [reflexivity|].
    split; [apply sorted_filter; apply array_sorted_from|].
    split; [exact OUT|]. rewrite R. split.
    + intros (s & A & B). exists s. split; auto. apply OUT.
      apply (needed_perm p l); auto. intros x. symmetry. apply IN.
    + intros (s & A & B). exists s. split; auto.
      apply (needed_perm l p); auto. apply OUT. exact A.
Qed.
