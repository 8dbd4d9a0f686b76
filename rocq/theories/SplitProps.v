(** * Properties of clause splitting: C20. *)
From Coq Require Import Permutation ClassicalDescription.
From Verif Require Import Terms Unify KBO Semantics Clauses ClausesProofs LitOrder Subsume SubsumeProofs SubsumeClause Split SplitProofs SplitSemProofs ExEnv.

(** ** The partition *)

(** Splitting always finishes. *)
Theorem C20_terminates : forall E lookup how fresh_defs sv flagged st n c, clause_split E lookup how fresh_defs sv flagged st n c <> None.
Proof.
  intros E lookup how fd sv fl st n c. unfold clause_split. destruct ((length c <=? 1) || fl) eqn:Q; [discriminate|]. apply orb_false_iff in Q. destruct Q as [Q _]. apply Nat.leb_gt in Q.
  destruct (split_table_spec how sv c) as [p [t [-> _]]]; [intros ->; cbn in Q; lia|]. destruct (Nat.ltb 1 p); [|discriminate].
  destruct (make_defs E lookup fd sv (blocks t p) st n []) as [[[a b] d] e]. discriminate.
Qed.

(** When a clause is split, its literals are divided into at least two non-empty blocks, each literal in exactly one; literals of
    different blocks share only split variables; the literals of one block hang together by shared variables (except for ground literals,
    when these are not split individually).  The remaining clause consists of one negated predicate per block, and each block has its
    predicate defined: by a new clause, or by a definition in the store for a clause that it subsumes and that subsumes it. *)
Theorem C20_partition : forall E lookup how fresh_defs sv flagged st n c r, lookup_ok E lookup ->
  clause_split E lookup how fresh_defs sv flagged st n c = Some (Some r) ->
  exists bs ps,
    Permutation (concat bs) c /\ 2 <= length bs /\ (forall b, In b bs -> b <> []) /\
    (forall i j bi bj x ei ej, i <> j -> nth_error bs i = Some bi -> nth_error bs j = Some bj -> In ei bi -> In ej bj ->
       In x (lit_vars ei) -> In x (lit_vars ej) -> In x sv) /\
    (forall b, In b bs -> exists e, forall e', In e' b -> linked sv c e e' \/ (how <> SplitGroundFull /\ forall x, In x (lit_vars e') -> In x sv)) /\
    rest r = rev (map (fun p => def_lit E p false sv) ps) /\ count r = S (length bs) /\
    Forall2 (fun p b => In (clause_alloc (def_lit E p true sv :: b)) (new_defs r) \/
                        (sv = [] /\ exists d fuel, In (d, p) (new_store r) /\ clause_subsumes E fuel d (sort_lits (clause_alloc b)) = Ans true /\
                                                  clause_subsumes E fuel (sort_lits (clause_alloc b)) d = Ans true)) ps bs.
Proof.
  intros E lookup how fd sv fl st n c r LK H. destruct (clause_split_inv E lookup how fd sv fl st n c r H) as [bs [PT [MD [CT L]]]].
  assert (X : forall bs st n join ds j st' n', make_defs E lookup fd sv bs st n join = (ds, j, st', n') -> incl st st' /\ exists ps, j = rev (map (fun p => def_lit E p false sv) ps) ++ join /\
    Forall2 (fun p b => In (clause_alloc (def_lit E p true sv :: b)) ds \/
       (sv = [] /\ exists d fuel, In (d, p) st' /\ clause_subsumes E fuel d (sort_lits (clause_alloc b)) = Ans true /\ clause_subsumes E fuel (sort_lits (clause_alloc b)) d = Ans true)) ps bs).
  { clear - LK. induction bs as [|b bs IH]; intros st n join ds j st' n' H; cbn [make_defs] in H.
    - injection H as <- <- <- <-. split; [apply incl_refl|]. exists []. split; auto.
    - destruct (one_def E lookup fd sv st n b) as [[[p d] st1] n1] eqn:O. destruct (make_defs E lookup fd sv bs st1 n1 (def_lit E p false sv :: join)) as [[[ds2 j2] st2] n2] eqn:MD.
      injection H as <- <- <- <-. apply (one_def_round E lookup LK) in O. destruct (IH _ _ _ _ _ _ _ MD) as [I [ps [EJ F]]].
      split; [destruct O as [st'' [->|[_ ->]]|]; auto; intros y Hy; apply I; right; auto|].
      exists (p :: ps). split; [rewrite EJ; cbn [map rev]; rewrite <- app_assoc; reflexivity|]. constructor.
      + destruct O as [st'' _|d0 p Esv I0 [fuel X]]; [left; left; auto|]. right. split; auto. exists d0, fuel. split; auto.
      + clear - F. induction F as [|q b' ps' bs' [Y|Y] _ IH']; constructor; auto. left. destruct d; [right|]; auto. }
  destruct (X _ _ _ _ _ _ _ _ MD) as [_ [ps [EJ F]]]. exists bs, ps.
  split; [apply (pt_perm how sv c bs PT)|]. split; auto. split; [apply (pt_nonempty how sv c bs PT)|]. split; [apply (pt_disj how sv c bs PT)|].
  split; [|rewrite EJ, app_nil_r; auto].
  intros b Hb. destruct (pt_conn how sv c bs PT b Hb) as [e He]. exists e. intros e' He'. destruct (He e' He'); auto.
Qed.

(** ** Satisfiability *)

(** The clauses of a proof state in which clauses are split (without split variables, as in the saturation loop), added when they follow
    from the others and removed when they follow from the others, are unsatisfiable exactly if the clauses at the start are. *)
Theorem C20_history : forall E lookup N0 n s, env_ok E -> lookup_ok E lookup -> Forall (clause_ok E) N0 -> Forall (below n) N0 -> 2 < n ->
  moves E lookup (fun sv => sv = []) {| pset := N0; pstore := []; pnext := n |} s -> (unsat E (pset s) <-> unsat E N0).
Proof. intros E lookup N0 n s HE LK OK BL N H. apply (moves_unsat E HE lookup LK (fun sv => sv = []) N0 n s); auto. intros sv ->. apply tabulable_nil. Qed.

(** A clause that contains none of the introduced predicates follows from the clauses at the end exactly if it follows from those at the
    start: splitting adds nothing about the old symbols and loses nothing. *)
Theorem C20_conservative : forall E lookup N0 n s c, env_ok E -> lookup_ok E lookup -> Forall (clause_ok E) N0 -> Forall (below n) N0 -> 2 < n ->
  moves E lookup (fun sv => sv = []) {| pset := N0; pstore := []; pnext := n |} s -> below n c -> (follows E (pset s) c <-> follows E N0 c).
Proof. intros E lookup N0 n s c HE LK OK BL N H. apply (moves_conservative E HE lookup LK (fun sv => sv = []) N0 n s c); auto. intros sv ->. apply tabulable_nil. Qed.

(** The same with split variables (uses the classical axioms of Coq.Logic.ClassicalDescription). *)
Theorem C20_history_split_variables : forall E lookup N0 n s, env_ok E -> lookup_ok E lookup -> Forall (clause_ok E) N0 -> Forall (below n) N0 -> 2 < n ->
  moves E lookup (fun _ => True) {| pset := N0; pstore := []; pnext := n |} s -> (sat E (pset s) <-> sat E N0).
Proof.
  intros E lookup N0 n s HE LK OK BL N H.
  assert (TB : forall sv, True -> tabulable sv).
  { intros sv _ D Q K. apply K. exists (fun ds => if excluded_middle_informative (Q ds) then true else false). intros ds _. destruct (excluded_middle_informative (Q ds)); split; auto; discriminate. }
  pose proof (moves_unsat E HE lookup LK (fun _ => True) N0 n s TB OK BL N H) as U.
  assert (X : forall N, sat E N <-> ~ unsat E N).
  { intros N1. split; [intros [M [A B]] V; apply (V M A B)|]. intros V. apply Classical_Prop.NNPP. intros W. apply V. intros M A B. apply W. exists M. auto. }
  rewrite !X. tauto.
Qed.

(** One split, in any context that does not know the new predicates. *)
Theorem C20_split : forall E lookup how fresh_defs sv flagged N1 c N2 n r, env_ok E -> lookup_ok E lookup ->
  Forall (clause_ok E) (N1 ++ c :: N2) -> Forall (below n) (N1 ++ c :: N2) -> 2 < n -> incl sv (flat_map lit_vars c) ->
  clause_split E lookup how fresh_defs sv flagged [] n c = Some (Some r) -> declared E sv n (new_next r) ->
  (sat E (N1 ++ N2 ++ new_defs r ++ [rest r]) <-> sat E (N1 ++ c :: N2)).
Proof.
  intros E lookup how fd sv fl N1 c N2 n r HE LK OK BL N I CS DC.
  apply (C20_history_split_variables E lookup (N1 ++ c :: N2) n {| pset := N1 ++ N2 ++ new_defs r ++ [rest r]; pstore := new_store r; pnext := new_next r |}); auto.
  eapply moves_step; [apply moves_refl|]. eapply move_split; eauto. intros d p [].
Qed.
(** ... and without axioms, for refutations and no split variables *)
Theorem C20_split_unsat : forall E lookup how fresh_defs flagged N1 c N2 n r, env_ok E -> lookup_ok E lookup ->
  Forall (clause_ok E) (N1 ++ c :: N2) -> Forall (below n) (N1 ++ c :: N2) -> 2 < n ->
  clause_split E lookup how fresh_defs [] flagged [] n c = Some (Some r) -> declared E [] n (new_next r) ->
  (unsat E (N1 ++ N2 ++ new_defs r ++ [rest r]) <-> unsat E (N1 ++ c :: N2)).
Proof.
  intros E lookup how fd fl N1 c N2 n r HE LK OK BL N CS DC.
  apply (C20_history E lookup (N1 ++ c :: N2) n {| pset := N1 ++ N2 ++ new_defs r ++ [rest r]; pstore := new_store r; pnext := new_next r |}); auto.
  eapply moves_step; [apply moves_refl|]. eapply move_split; eauto; [intros x []|intros d p []].
Qed.

(** A stored definition follows as long as its defining clause is there. *)
Theorem C20_kept_definition : forall E N p l, In (clause_alloc (def_lit E p true [] :: l)) N ->
  follows E N (def_lit E p true [] :: sort_lits (clause_alloc l)).
Proof.
  intros E N p l H M G T v Hv. specialize (T _ H v Hv). apply (proj1 (clause_alloc_holds M v _)) in T. inversion T; subst; [left; auto|]. right. apply sorted_exists. auto.
Qed.

(** ** SplitGroundOne *)

(** "Split off (at most) one ground subclause containing all ground literals": false when the first literal of the clause is not ground,
    since the index 0 returned by find_free_literal counts as false. *)
Theorem C20_ground_one_refuted : exists E lookup c,
  env_ok E /\ clause_ok E c /\
  (exists e e', In e c /\ In e' c /\ lit_vars e = [] /\ lit_vars e' <> []) /\
  clause_split E lookup SplitGroundOne true [] false [] 30 c = Some None /\
  exists c' r, Permutation c c' /\ clause_split E lookup SplitGroundOne true [] false [] 30 c' = Some (Some r).
Proof.
  exists E0, (fun _ _ => None), [at0 (p0 X0); eq0 a0 b0]. split; [apply E0_ok|]. split; [apply clause_okb; reflexivity|]. split.
  - exists (eq0 a0 b0), (at0 (p0 X0)). cbn. split; auto. split; auto. split; auto. discriminate.
  - split; [vm_compute; reflexivity|]. exists [eq0 a0 b0; at0 (p0 X0)]. eexists. split; [apply perm_swap|]. vm_compute. reflexivity.
Qed.

(** ** The hypotheses can be met *)

(** codes from 30 on are propositional constants, from 40 on unary predicates *)
Definition S1 : sorting := {|
  vsort := vsort S0;
  fres := fun f => if 30 <=? f then 0 else fres S0 f;
  fargs := fun f => if 40 <=? f then [1] else fargs S0 f |}.
Definition E1 : env := {| srt := S1; pp := pp E0; dist := dist E0; pspred := pspred E0; fresh := fresh E0 |}.
Lemma E1_ok : env_ok E1.
Proof. pose proof E0_ok as H. constructor; try apply H; reflexivity. Qed.

Definition scan (st : defstore) (d : clause) : option (clause * sym) :=
  find (fun q => match clause_subsumes E1 60 (fst q) d, clause_subsumes E1 60 d (fst q) with Ans true, Ans true => true | _, _ => false end) st.
Lemma scan_ok : lookup_ok E1 scan.
Proof.
  intros st d d' p H. apply find_some in H. destruct H as [I H]. split; auto. cbn [fst] in H. exists 60.
  destruct (clause_subsumes E1 60 d' d) as [[|]| |]; try discriminate. destruct (clause_subsumes E1 60 d d') as [[|]| |]; try discriminate. auto.
Qed.

(** p(X) | q(Y,Y) and p(Z) | ~q(a,U): the second split uses the first one's definition of p again *)
Definition c1 : clause := [at0 (p0 X0); at0 (q0 Y0 Y0)].
Definition c2 : clause := [at0 (p0 Z0); nat0 (q0 a0 U0)].
Definition after1 : pstate :=
  match clause_split E1 scan SplitGroundFull false [] false [] 30 c1 with
  | Some (Some r) => {| pset := [] ++ [c2] ++ new_defs r ++ [rest r]; pstore := new_store r; pnext := new_next r |} | _ => {| pset := []; pstore := []; pnext := 0 |} end.
Definition after2 : pstate :=
  match clause_split E1 scan SplitGroundFull false [] false (pstore after1) (pnext after1) c2 with
  | Some (Some r) => {| pset := [] ++ tl (pset after1) ++ new_defs r ++ [rest r]; pstore := new_store r; pnext := new_next r |} | _ => {| pset := []; pstore := []; pnext := 0 |} end.
Example two_splits :
  moves E1 scan (fun sv => sv = []) {| pset := [c1; c2]; pstore := []; pnext := 30 |} after2 /\
  Forall (clause_ok E1) [c1; c2] /\ Forall (below 30) [c1; c2] /\ pnext after2 = 33 /\ length (pset after2) = 5.
Proof.
  assert (DC : forall n m, 30 <= n -> m <= 33 -> declared E1 [] n m).
  { intros n m Hn Hm f Hf. cbn [srt E1 S1 fres fargs dist]. assert (30 <=? f = true) as -> by (apply Nat.leb_le; lia). assert (40 <=? f = false) as -> by (apply Nat.leb_gt; lia).
    do 33 (destruct f as [|f]; [try lia; auto|]). lia. }
  split; [|split; [constructor; [apply clause_okb; reflexivity|constructor; [apply clause_okb; reflexivity|constructor]]|split; [|split; vm_compute; reflexivity]]].
  - apply moves_step with (s2 := after1); [eapply moves_step; [apply moves_refl|]|].
    + unfold after1. destruct (clause_split E1 scan SplitGroundFull false [] false [] 30 c1) as [[r|]|] eqn:R; [|exfalso; vm_compute in R; discriminate R|exfalso; vm_compute in R; discriminate R].
      apply (move_split E1 scan (fun sv => sv = []) SplitGroundFull false [] false [] c1 [c2] [] 30 r eq_refl R); [|intros x []|intros d p []].
      assert (N : new_next r = 32) by (vm_compute in R; injection R as <-; reflexivity). rewrite N. apply DC; lia.
    + unfold after2. destruct (clause_split E1 scan SplitGroundFull false [] false (pstore after1) (pnext after1) c2) as [[r|]|] eqn:R; [|exfalso; vm_compute in R; discriminate R|exfalso; vm_compute in R; discriminate R].
      assert (P1 : after1 = {| pset := [] ++ c2 :: tl (pset after1); pstore := pstore after1; pnext := pnext after1 |}) by (vm_compute; reflexivity). rewrite P1 at 1.
      assert (R2 : new_next r = 33 /\ rest r = [def_lit E1 32 false []; def_lit E1 30 false []]) by (vm_compute in R; injection R as <-; split; reflexivity).
      assert (P2 : pstore after1 = [(sort_lits (clause_alloc [at0 (q0 Y0 Y0)]), 31); (sort_lits (clause_alloc [at0 (p0 X0)]), 30)]) by (vm_compute; reflexivity).
      apply (move_split E1 scan (fun sv => sv = []) SplitGroundFull false [] false [] c2 (tl (pset after1)) (pstore after1) (pnext after1) r eq_refl R); [|intros x []|].
      * rewrite (proj1 R2). apply DC; [|lia]. change (pnext after1) with 32. lia.
      * intros d p Hd Hr. rewrite P2 in Hd. rewrite (proj2 R2) in Hr. destruct Hd as [[= <- <-]|[[= <- <-]|[]]].
        -- exfalso. destruct Hr as [Hr|[Hr|[]]]; vm_compute in Hr; discriminate Hr.
        -- apply (C20_kept_definition E1 ([] ++ tl (pset after1)) 30 [at0 (p0 X0)]). vm_compute. auto.
  - constructor; [|constructor; [|constructor]]; intros e f [<-|[<-|[]]] Hf; vm_compute in Hf; repeat (destruct Hf as [<-|Hf]; [lia|]); destruct Hf.
Qed.
(** with a split variable: q(X,Y) | q(X,Z) *)
Example split_variable : exists r, clause_split E1 scan SplitGroundNone true [0] false [] 40 [at0 (q0 X0 Y0); at0 (q0 X0 Z0)] = Some (Some r) /\
  declared E1 [0] 40 (new_next r) /\ rest r = [nat0 (Fun 41 [X0]); nat0 (Fun 40 [X0])].
Proof.
  eexists. split; [vm_compute; reflexivity|]. split; [|reflexivity]. cbn [new_next]. intros f Hf.
  cbn [srt E1 S1 fres fargs dist]. assert (30 <=? f = true) as -> by (apply Nat.leb_le; lia). assert (40 <=? f = true) as -> by (apply Nat.leb_le; lia).
  split; auto. split; auto. do 42 (destruct f as [|f]; [try lia; auto|]). lia.
Qed.

Print Assumptions C20_conservative.
Print Assumptions C20_terminates.
Print Assumptions C20_partition.
Print Assumptions C20_history.
Print Assumptions C20_split_unsat.
Print Assumptions C20_kept_definition.
Print Assumptions C20_ground_one_refuted.
Print Assumptions C20_history_split_variables.
Print Assumptions C20_split.
