(** * C23, C42: searches in the feature vector index find what a linear scan finds

    [init_index] sets up the features and the permutation vector of the indices over the processed clauses and the watchlist from the
    options, the signature and the axioms, [init_defstore] that of the index over the definitions. [fv_run] performs a history of
    insertions and deletions on an empty index. [fvlits st id] are the literals of the clause at address [id] now (insertion sorts them).
    The specification, [fv_history] and [no_trivial], stands at the end of FVIndex.v; the test that a clause subsumes another one,
    [clause_subsumes], is the subject of C15 and C16. *)
From Coq Require Import Permutation.
From Verif Require Import Subsume FVIndex SubsumeProps FVIndexProofs FVTreeProofs ExEnv.
Open Scope Z_scope.

Definition zeros : farr := fun _ => 0.
(** the feature types a user can choose *)
Definition selectable (f : ftype) : Prop := f <> NoFeatures /\ f <> CollectFeatures.

(** Setting up the index never runs into a loop or out of bounds, and no history of insertions and deletions does. The literals of a clause
    are only reordered. *)
Theorem C23_setup f sg slack maxs axioms el :
  selectable f -> (1 <= f_count sg)%nat -> (1 <= maxs)%nat ->
  exists cs perm, init_index f sg slack maxs zeros axioms el = Some (cs, perm) /\
    forall lits os ids, fv_history os ids -> exists st, fv_run cs perm (fv_start lits) os = Some st /\ forall id, Permutation (fvlits st id) (lits id).
Proof.
  intros [N1 N2] F M. destruct (init_index_ok f sg slack maxs zeros axioms el F M N2 N1) as [cs [perm [A [B C]]]]; [intros i; reflexivity|]. exists cs, perm. split; auto.
  intros lits os ids H. destruct (history_ok cs perm lits os ids B C H) as [st [R S]]. exists st. split; auto. apply S.
Qed.

(** What the following theorems are about: an index of a user's choice after a history *)
Record reached (f : ftype) (sg : signat) (cs : cspec) (perm : option (list nat)) (E : env) (lits : nat -> clause) (ids : list nat) (st : fvstate) : Prop := {
  r_type : selectable f; r_sig : (1 <= f_count sg)%nat;
  r_init : exists slack maxs axioms el, (1 <= maxs)%nat /\ init_index f sg slack maxs zeros axioms el = Some (cs, perm);
  r_hist : exists os, fv_history os ids /\ fv_run cs perm (fv_start lits) os = Some st;
  r_ok : forall id, In id ids -> clause_ok E (lits id) }.
Lemma reached_ok f sg cs perm E lits ids st : reached f sg cs perm E lits ids st -> spec_ok cs /\ perm_ok cs perm /\ start_ok lits st cs perm ids.
Proof.
  intros [[N1 N2] F [slack [maxs [axioms [el [M I]]]]] [os [H R]] OK].
  destruct (init_index_ok f sg slack maxs zeros axioms el F M N2 N1) as [cs' [perm' [A [B C]]]]; [intros i; reflexivity|]. rewrite I in A. injection A as <- <-.
  destruct (history_ok cs perm lits os ids B C H) as [st' [R' S]]. rewrite R in R'. injection R' as <-. auto.
Qed.

(** Forward subsumption: the answer is that of testing every clause in the index. *)
Theorem C23_subsuming f sg cs perm E lits ids st fuel d :
  reached f sg cs perm E lits ids st -> clause_ok E d -> no_trivial d -> (forall id, In id ids -> (csize (lits id) + csize d < fuel)%nat) ->
  match fv_query E fuel cs perm st (QSubsuming d) with
  | Found id => In id ids /\ clause_subsumes E fuel (fvlits st id) d = Ans true
  | NotFound => forall id, In id ids -> clause_subsumes E fuel (fvlits st id) d = Ans false
  | _ => False
  end.
Proof. intros R. destruct (reached_ok _ _ _ _ _ _ _ _ R) as [A [B C]]. exact (forward_ok E fuel cs perm lits st ids A B C (r_ok _ _ _ _ _ _ _ _ R) d). Qed.
(** Backward subsumption: exactly the subsumed clauses, each once. *)
Theorem C23_subsumed f sg cs perm E lits ids st fuel c :
  reached f sg cs perm E lits ids st -> clause_ok E c -> (forall id, In id ids -> no_trivial (lits id)) -> (forall id, In id ids -> (csize c + csize (lits id) < fuel)%nat) ->
  exists l, fv_subsumed E fuel cs perm st c = Found l /\ NoDup l /\ forall id, In id l <-> In id ids /\ clause_subsumes E fuel c (fvlits st id) = Ans true.
Proof. intros R. destruct (reached_ok _ _ _ _ _ _ _ _ R) as [A [B C]]. exact (all_ok E fuel cs perm lits st ids A B C (r_ok _ _ _ _ _ _ _ _ R) c). Qed.
(** The search for one subsumed clause (watchlist) *)
Theorem C23_first_subsumed f sg cs perm E lits ids st fuel c :
  reached f sg cs perm E lits ids st -> clause_ok E c -> (forall id, In id ids -> no_trivial (lits id)) -> (forall id, In id ids -> (csize c + csize (lits id) < fuel)%nat) ->
  match fv_query E fuel cs perm st (QFirstSubsumed c) with
  | Found id => In id ids /\ clause_subsumes E fuel c (fvlits st id) = Ans true
  | NotFound => forall id, In id ids -> clause_subsumes E fuel c (fvlits st id) = Ans false
  | _ => False
  end.
Proof. intros R. destruct (reached_ok _ _ _ _ _ _ _ _ R) as [A [B C]]. exact (first_ok E fuel cs perm lits st ids A B C (r_ok _ _ _ _ _ _ _ _ R) c). Qed.
(** The search for a variant: a clause that subsumes and is subsumed *)
Theorem C23_variant f sg cs perm E lits ids st fuel d :
  reached f sg cs perm E lits ids st -> clause_ok E d -> no_trivial d -> (forall id, In id ids -> no_trivial (lits id)) -> (forall id, In id ids -> (csize (lits id) + csize d < fuel)%nat) ->
  match fv_query E fuel cs perm st (QVariant d) with
  | Found id => In id ids /\ clause_subsumes E fuel (fvlits st id) d = Ans true /\ clause_subsumes E fuel d (fvlits st id) = Ans true
  | NotFound => forall id, In id ids -> clause_subsumes E fuel (fvlits st id) d = Ans false \/ clause_subsumes E fuel d (fvlits st id) = Ans false
  | _ => False
  end.
Proof. intros R. destruct (reached_ok _ _ _ _ _ _ _ _ R) as [A [B C]]. exact (variant_ok E fuel cs perm lits st ids A B C (r_ok _ _ _ _ _ _ _ _ R) d). Qed.

(** *** A concrete case *)
Definition sg0 : signat := {| internal_symbols := 2; f_count := 10; special := fun _ => false;
  predicate := fun f => Nat.eqb f 8 || Nat.eqb f 10; function := fun f => negb (Nat.eqb f 8 || Nat.eqb f 10) |}.
Definition lits0 (id : nat) : clause :=
  match id with
  | 1 => [at0 (p0 X0); eq0 (f0 X0) b0] | 2 => [nat0 (q0 X0 Y0); at0 (p0 Y0)] | 3 => [eq0 (g0 X0 Y0) (g0 Y0 X0)]
  | 4 => [at0 (p0 a0); eq0 (f0 a0) b0; nat0 (q0 a0 a0)] | _ => [at0 (p0 (f0 X0))] end%nat.
Definition ops0 := [FInsert 1; FInsert 2; FInsert 3; FInsert 5; FDelete 5]%nat.
Definition query0 : clause := sort_lits [eq0 (f0 a0) b0; nat0 (q0 a0 b0); at0 (p0 a0)].
Definition answers0 (f : ftype) : option (found nat * found (list nat) * found nat) :=
  match init_index f sg0 0 30 zeros [lits0 1; lits0 2; lits0 4] false with
  | None => None
  | Some (cs, perm) => match fv_run cs perm (fv_start lits0) ops0 with
                       | None => None
                       | Some st => Some (fv_query E0 60 cs perm st (QSubsuming query0), fv_subsumed E0 60 cs perm st [at0 (p0 X0)], fv_query E0 60 cs perm st (QVariant (sort_lits (lits0 1))))
                       end
  end.
Lemma history0 : fv_history ops0 [3; 2; 1]%nat.
Proof.
  change ops0 with ((((([] ++ [FInsert 1]) ++ [FInsert 2]) ++ [FInsert 3]) ++ [FInsert 5]) ++ [FDelete 5])%nat.
  change [3; 2; 1]%nat with (pdelete 5 (pstore 5 (pstore 3 (pstore 2 (pstore 1 [])))))%nat.
  constructor; [|left; reflexivity]. repeat constructor.
Qed.
Example C23_example f cs perm st : In f [ACFeatures; SSFeatures; AllFeatures; BillFeatures; BillPlusFeatures; ACFold; ACStagger] ->
  init_index f sg0 0 30 zeros [lits0 1; lits0 2; lits0 4] false = Some (cs, perm) -> fv_run cs perm (fv_start lits0) ops0 = Some st ->
  reached f sg0 cs perm E0 lits0 [3; 2; 1]%nat st /\ clause_ok E0 query0 /\ no_trivial query0 /\
  fv_query E0 60 cs perm st (QSubsuming query0) = Found 1%nat /\
  (exists l, fv_subsumed E0 60 cs perm st [at0 (p0 X0)] = Found l /\ Permutation l [1; 2]%nat) /\
  fv_query E0 60 cs perm st (QVariant (sort_lits (lits0 1))) = Found 1%nat.
Proof.
  intros I A B.
  assert (X : match answers0 f with Some (Found q1, Found l, Found q2) => Nat.eqb q1 1 && (match l with [x; y] => Nat.eqb (x * y) 2 && Nat.eqb (x + y) 3 | _ => false end) && Nat.eqb q2 1 | _ => false end = true)
    by (repeat destruct I as [<-|I]; [vm_compute; reflexivity ..|destruct I]).
  unfold answers0 in X. rewrite A, B in X. split; [|split; [apply clause_okb; reflexivity|split; [repeat constructor; discriminate|]]].
  - constructor.
    + split; intros ->; repeat destruct I as [I|I]; try discriminate; destruct I.
    + cbn [sg0 f_count]. lia.
    + exists O, 30%nat, [lits0 1; lits0 2; lits0 4], false. split; [lia|auto].
    + exists ops0. split; auto. apply history0.
    + intros id [<-|[<-|[<-|[]]]]; apply clause_okb; reflexivity.
  - destruct (fv_query E0 60 cs perm st (QSubsuming query0)) as [q1| | |]; try discriminate.
    destruct (fv_subsumed E0 60 cs perm st [at0 (p0 X0)]) as [l| | |]; try discriminate.
    destruct (fv_query E0 60 cs perm st (QVariant (sort_lits (lits0 1)))) as [q2| | |]; try discriminate.
    apply andb_true_iff in X. destruct X as [X X3]. apply andb_true_iff in X. destruct X as [X1 X2]. apply Nat.eqb_eq in X1, X3. subst.
    split; auto. split; auto. exists l. split; auto. destruct l as [|x [|y [|? ?]]]; try discriminate. apply andb_true_iff in X2. rewrite !Nat.eqb_eq in X2. destruct X2.
    assert (V : (x = 1 /\ y = 2 \/ x = 2 /\ y = 1)%nat) by nia. destruct V as [[-> ->]|[-> ->]]; auto. apply perm_swap.
Qed.

(** *** Outside of the hypotheses *)
(** A positive unit passes the test against every clause with a literal s = s of the same sort whose sides are not constants; the index
    does not find it. (Such clauses are tautologies and are normally deleted before.) *)
Definition lits1 (id : nat) : clause := match id with 1%nat => [eq0 (f0 (f0 a0)) b0] | 7%nat => [eq0 (f0 (f0 a0)) b0] | _ => [] end.
Definition check1 (os : list fvop) (d : clause) : option (answer * found nat) :=
  match init_index ACFold sg0 0 30 zeros [lits1 1; lits0 1; lits0 2; lits0 4] false with
  | None => None
  | Some (cs, perm) => match fv_run cs perm (fv_start lits1) os with
                       | None => None
                       | Some st => Some (clause_subsumes E0 60 (fvlits st 1%nat) d, fv_query E0 60 cs perm st (QSubsuming d))
                       end
  end.
Lemma check1_ok os d a r : check1 os d = Some (a, r) -> exists cs perm st, init_index ACFold sg0 0 30 zeros [lits1 1; lits0 1; lits0 2; lits0 4] false = Some (cs, perm) /\
  fv_run cs perm (fv_start lits1) os = Some st /\ clause_subsumes E0 60 (fvlits st 1%nat) d = a /\ fv_query E0 60 cs perm st (QSubsuming d) = r.
Proof.
  unfold check1. destruct (init_index _ _ _ _ _ _ _) as [[cs perm]|]; [|discriminate]. destruct (fv_run cs perm _ os) as [st|] eqn:R; [|discriminate]. intros Q. apply some_inj in Q. apply pair_equal_spec in Q. destruct Q as [Q1 Q2]. exists cs, perm, st. auto.
Qed.
Theorem C23_trivial_literal_refuted : exists f cs perm st d,
  reached f sg0 cs perm E0 lits1 [1%nat] st /\ clause_ok E0 d /\
  clause_subsumes E0 60 (fvlits st 1%nat) d = Ans true /\ fv_query E0 60 cs perm st (QSubsuming d) = NotFound.
Proof.
  destruct (check1_ok [FInsert 1%nat] [eq0 (g0 X0 Y0) (g0 X0 Y0)] (Ans true) NotFound) as [cs [perm [st [A [B [C D]]]]]]; [vm_compute; reflexivity|].
  exists ACFold, cs, perm, st, [eq0 (g0 X0 Y0) (g0 X0 Y0)]. split; [|split; [apply clause_okb; reflexivity|auto]].
  constructor; [split; discriminate|cbn [sg0 f_count]; lia| | |].
  - exists O, 30%nat, [lits1 1; lits0 1; lits0 2; lits0 4], false. split; [lia|auto].
  - exists [FInsert 1%nat]. split; auto. apply (fh_insert [] [] 1%nat). constructor.
  - intros id [<-|[]]. apply clause_okb. reflexivity.
Qed.
(** Deleting a clause that is not in the index hides one that is: the numbers of clauses below the nodes are decremented anyway. *)
Theorem C23_deleting_absent_clause_refuted : exists cs perm st st',
  init_index ACFold sg0 0 30 zeros [lits1 1; lits0 1; lits0 2; lits0 4] false = Some (cs, perm) /\
  fv_run cs perm (fv_start lits1) [FInsert 1; FDelete 7]%nat = Some st /\
  clause_subsumes E0 60 (fvlits st 1%nat) (lits1 1) = Ans true /\ fv_query E0 60 cs perm st (QSubsuming (lits1 1)) = NotFound /\
  fv_run cs perm (fv_start lits1) [FInsert 1%nat] = Some st' /\ fv_query E0 60 cs perm st' (QSubsuming (lits1 1)) = Found 1%nat.
Proof.
  destruct (check1_ok [FInsert 1; FDelete 7]%nat (lits1 1) (Ans true) NotFound) as [cs [perm [st [A [B [C D]]]]]]; [vm_compute; reflexivity|].
  destruct (check1_ok [FInsert 1]%nat (lits1 1) (Ans true) (Found 1%nat)) as [cs' [perm' [st' [A' [B' [C' D']]]]]]; [vm_compute; reflexivity|].
  rewrite A in A'. apply some_inj in A'. apply pair_equal_spec in A'. destruct A' as [<- <-]. exists cs, perm, st, st'. auto 10.
Qed.

(** ** C42: the index of the definition store *)
(** For these choices of features, the index over the definitions works; without features it has no permutation vector. *)
Definition defstore_types : list ftype := [NoFeatures; SSFeatures; BillFeatures; ACFold; ACStagger].
Record def_reached (f : ftype) (sg : signat) (cs : cspec) (perm : option (list nat)) (E : env) (lits : nat -> clause) (ids : list nat) (st : fvstate) : Prop := {
  d_type : In f defstore_types; d_sig : (1 <= f_count sg)%nat;
  d_init : exists slack maxs axioms el, (1 <= maxs)%nat /\ init_defstore f sg slack maxs zeros axioms el = Some (cs, perm);
  d_hist : exists os, fv_history os ids /\ fv_run cs perm (fv_start lits) os = Some st;
  d_ok : forall id, In id ids -> clause_ok E (lits id) }.
Lemma defstore_ok f sg slack maxs axioms el : In f defstore_types -> (1 <= f_count sg)%nat -> (1 <= maxs)%nat ->
  exists cs perm, init_defstore f sg slack maxs zeros axioms el = Some (cs, perm) /\ spec_ok cs /\ perm_ok cs perm.
Proof.
  intros I F M. unfold init_defstore. set (s := Nat.min (f_count sg + slack) maxs). assert (L : (1 <= s)%nat) by (unfold s; lia).
  destruct f; try (exfalso; repeat destruct I as [I|I]; try discriminate; exact I).
  - eexists _, _. split; [reflexivity|]. split; [apply fold_ok; auto|exact Logic.I].
  - destruct (init_index_ok SSFeatures sg slack maxs zeros axioms el) as [cs [perm [A [B C]]]]; try discriminate; auto; [intros i; reflexivity|]. rewrite A. eexists _, _. split; [reflexivity|]. split; [apply fold_ok; auto|].
    unfold init_index in A. cbn [init_spec] in A. destruct (perm_compute _ _ _ _) as [p|]; [|discriminate]. injection A as <- <-. unfold perm_ok in *. destruct p as [p|]; auto. eapply Forall_impl; [|exact C]. intros i. unfold vec_len. cbn. fold s. lia.
  - destruct (init_index_ok BillFeatures sg slack maxs zeros axioms el) as [cs [perm [A [B C]]]]; try discriminate; auto; [intros i; reflexivity|]. rewrite A. eexists _, _. split; [reflexivity|]. split; [apply fold_ok; auto|].
    unfold init_index in A. destruct (init_spec BillFeatures sg slack maxs) as [cs'|] eqn:Q; [|discriminate]. unfold init_spec in Q. destruct (bill_spec _ _ _) as [b|] eqn:Q2; [|discriminate].
    destruct (perm_compute _ _ _ _) as [p|]; [|discriminate]. injection A as <- <-. injection Q as <-. unfold perm_ok in *. destruct p as [p|]; auto. eapply Forall_impl; [|exact C]. intros i.
    unfold bill_spec in Q2. destruct (reduce _ _ _ _ _) as [[? ?]|]; [|discriminate]. destruct (fill _ _ _ _ _ _ _) as [[? ?]|]; [|discriminate]. destruct (fill _ _ _ _ _ _ _) as [[? ?]|]; [|discriminate]. injection Q2 as <-. unfold vec_len. cbn. fold s. lia.
  - destruct (init_index_ok ACFold sg slack maxs zeros axioms el) as [cs [perm [A [B C]]]]; try discriminate; auto; [intros i; reflexivity|]. rewrite A. eexists _, _. split; [reflexivity|]. split; [apply fold_ok; auto|].
    unfold init_index in A. cbn [init_spec] in A. destruct (perm_compute _ _ _ _) as [p|]; [|discriminate]. injection A as <- <-. exact C.
  - destruct (init_index_ok ACStagger sg slack maxs zeros axioms el) as [cs [perm [A [B C]]]]; try discriminate; auto; [intros i; reflexivity|]. rewrite A. eexists _, _. split; [reflexivity|]. split; [apply fold_ok; auto|].
    unfold init_index in A. cbn [init_spec] in A. destruct (perm_compute _ _ _ _) as [p|]; [|discriminate]. injection A as <- <-. exact C.
Qed.
(** Looking for a known definition (the search used by the definition store is the one for a variant) gives the answer of a linear scan. *)
Theorem C42_definition_store_partial f sg cs perm E lits ids st fuel d :
  def_reached f sg cs perm E lits ids st -> clause_ok E d -> no_trivial d -> (forall id, In id ids -> no_trivial (lits id)) -> (forall id, In id ids -> (csize (lits id) + csize d < fuel)%nat) ->
  match fv_query E fuel cs perm st (QVariant d) with
  | Found id => In id ids /\ clause_subsumes E fuel (fvlits st id) d = Ans true /\ clause_subsumes E fuel d (fvlits st id) = Ans true
  | NotFound => forall id, In id ids -> clause_subsumes E fuel (fvlits st id) d = Ans false \/ clause_subsumes E fuel d (fvlits st id) = Ans false
  | _ => False
  end.
Proof.
  intros [I F [slack [maxs [axioms [el [M J]]]]] [os [H R]] OK]. destruct (defstore_ok f sg slack maxs axioms el I F M) as [cs' [perm' [A [B C]]]]. rewrite J in A. injection A as <- <-.
  destruct (history_ok cs perm lits os ids B C H) as [st' [R' S]]. rewrite R in R'. injection R' as <-. exact (variant_ok E fuel cs perm lits st ids B C S OK d).
Qed.
(** With these features the permutation vector has positions beyond the vectors of the definition store: the first use of its index
    reads out of bounds. *)
Theorem C42_out_of_bounds_refuted : forall f, In f [ACFeatures; AllFeatures] -> exists axioms cs perm,
  Forall (clause_ok E0) axioms /\ init_defstore f sg0 0 30 zeros axioms false = Some (cs, perm) /\
  fv_run cs perm (fv_start lits0) [FInsert 1%nat] = None.
Proof.
  intros f I. set (ax := [lits0 1; lits0 2; lits0 4; [eq0 (h0 (h0 X0 Y0) Y0) (h0 (h0 X0 Y0) Z0); at0 (q0 (f0 (f0 X0)) X0); nat0 (q0 X0 Y0)]]).
  assert (X : match init_defstore f sg0 0 30 zeros ax false with Some (cs, perm) => match fv_run cs perm (fv_start lits0) [FInsert 1%nat] with None => true | _ => false end | _ => false end = true)
    by (repeat destruct I as [<-|I]; [vm_compute; reflexivity ..|destruct I]).
  exists ax. destruct (init_defstore f sg0 0 30 zeros ax false) as [[cs perm]|]; [|discriminate]. exists cs, perm.
  split; [repeat (apply Forall_cons; [apply clause_okb; reflexivity|]); constructor|]. split; auto. destruct (fv_run cs perm (fv_start lits0) [FInsert 1%nat]); [discriminate|auto].
Qed.
Example C42_example : forall f, In f defstore_types -> exists cs perm st, init_defstore f sg0 0 30 zeros [lits0 1; lits0 2; lits0 4] false = Some (cs, perm) /\
  fv_run cs perm (fv_start lits0) ops0 = Some st /\ def_reached f sg0 cs perm E0 lits0 [3; 2; 1]%nat st /\ fv_query E0 60 cs perm st (QVariant (sort_lits (lits0 1))) = Found 1%nat.
Proof.
  intros f I. destruct (defstore_ok f sg0 0 30 [lits0 1; lits0 2; lits0 4] false I) as [cs [perm [A [B C]]]]; [cbn [sg0 f_count]; lia|lia|].
  destruct (history_ok cs perm lits0 ops0 _ B C history0) as [st [R S]]. exists cs, perm, st. split; auto. split; auto. split.
  - constructor; auto; [cbn [sg0 f_count]; lia| | |].
    + exists O, 30%nat, [lits0 1; lits0 2; lits0 4], false. split; [lia|auto].
    + exists ops0. split; auto. apply history0.
    + intros id [<-|[<-|[<-|[]]]]; apply clause_okb; reflexivity.
  - assert (X : match init_defstore f sg0 0 30 zeros [lits0 1; lits0 2; lits0 4] false with
      Some (cs, perm) => match fv_run cs perm (fv_start lits0) ops0 with Some st => match fv_query E0 60 cs perm st (QVariant (sort_lits (lits0 1))) with Found 1%nat => true | _ => false end | None => false end | None => false end = true)
      by (clear -I; repeat destruct I as [<-|I]; [vm_compute; reflexivity ..|destruct I]).
    rewrite A, R in X. destruct (fv_query E0 60 cs perm st (QVariant (sort_lits (lits0 1)))) as [[|[|?]]| | |]; try discriminate. auto.
Qed.

Print Assumptions C23_setup.
Print Assumptions C23_subsuming.
Print Assumptions C23_subsumed.
Print Assumptions C23_first_subsumed.
Print Assumptions C23_variant.
Print Assumptions C23_trivial_literal_refuted.
Print Assumptions C23_deleting_absent_clause_refuted.
Print Assumptions C42_definition_store_partial.
Print Assumptions C42_out_of_bounds_refuted.
