(** * C39, C40, C41: what the clause indices contain, and the numbers they use for positions

    [gindex fn iops ops] is an index after a history [ops] of clause insertions and deletions, for the backward rewriting index ([bw_ops]),
    and the indices for paramodulation into ([into_ops], [negp_ops]) and from ([from_ops]) a clause. The specification stands at the end of
    ClauseIdx.v: [occurs], [into_position], [neg_atom], [from_position], [history]. *)
From Verif Require Import Terms Semantics Clauses FPIndex FPIndexProofs ClauseIdx ClauseIdxProofs.
Open Scope Z_scope.

(** ** C40: compact positions *)
(** Packing a position and unpacking it again gives the same position, and the subterm found is the one at this position. *)
Theorem C40_unpack_pack c i left p t : occurs c i left p t -> unpack c (pack c i left p) = Some (i, left, p) /\ cpos_subterm c (pack c i left p) = Some t.
Proof. intros O. split; [exact (unpack_ok _ _ _ _ _ O)|exact (cpos_subterm_ok _ _ _ _ _ O)]. Qed.
(** Different positions have different numbers. *)
Theorem C40_injective c i l p t i' l' p' t' : occurs c i l p t -> occurs c i' l' p' t' -> pack c i l p = pack c i' l' p' -> i = i' /\ l = l' /\ p = p'.
Proof. intros O O' E. pose proof (unpack_ok _ _ _ _ _ O) as H. rewrite E, (unpack_ok _ _ _ _ _ O') in H. injection H as <- <- <-. auto. Qed.
(** The iteration over literals yields the numbers of the tops of their left sides. *)
Theorem C40_literals c i e : nth_error c i = Some e -> nth_error (lit_cpos c 0) i = Some (pack c i true []).
Proof.
  intros E. rewrite lit_cpos_ok by (apply nth_error_Some; congruence). unfold pack. rewrite E. cbn [pack_term]. f_equal. unfold lsum. lia.
Qed.

(** ** C41: paramodulation partners *)
(** The index of positions to paramodulate into. Every entry returned stands for such a position of a clause that is present; and for every
    clause present, every such position whose subterm unifies with the query is returned. *)
Theorem C41_into (ispred : Z -> bool) (sigarity : Z -> nat) fn ops ps q :
  fpfun_ok fn -> history ops ps -> Forall (fun o => clause_fo (arity sigarity) (gop_clause o)) ops -> fo_term (arity sigarity) q ->
  exists a, index_unifiable ispred sigarity fn (gindex fn into_ops ops) q = Some a /\
    (forall t id k, answers a (t, (id, k)) -> exists c i left p, In (id, c) ps /\ into_position c i left p t /\ ~ neg_atom c i left p /\ k = pack c i left p) /\
    (forall id c i left p t, In (id, c) ps -> into_position c i left p t -> ~ neg_atom c i left p -> unifiable q t -> answers a (t, (id, pack c i left p))).
Proof.
  intros O H F Q. destruct (history_entries _ _ _ _ into_kind H) as [_ E].
  destruct (index_unif_ok ispred sigarity fn (gindex fn into_ops ops) _ q O (rep_run sigarity fn O (flat_map into_ops ops) fp_empty _ (rep_empty sigarity fn)
    (ol_fo sigarity (fun c => fst (clause_into_pos c 0)) (fun c => fst (clause_into_terms c)) into_ops (fun c => proj1 (clause_terms_map c 0)) (fun _ _ => eq_refl) (fun _ _ => eq_refl) (into_fo sigarity) ops F)) Q) as [a [A [B C]]].
  exists a. split; auto. split.
  - intros t id k An. apply B, E in An. destruct An as [id' [c [t' [k' [I [In' [= <- <- <-]]]]]]]. apply into_spec in In'. destruct In' as [i [l [p X]]]. exists c, i, l, p. tauto.
  - intros id c i l p t I Ip Na U. apply C; auto. apply E. exists id, c, t, (pack c i l p). split; auto. split; auto. apply into_spec. exists i, l, p. auto.
Qed.
(** The same for the atoms of negative non-equational literals, in their own index. *)
Theorem C41_negp (ispred : Z -> bool) (sigarity : Z -> nat) fn ops ps q :
  fpfun_ok fn -> history ops ps -> Forall (fun o => clause_fo (arity sigarity) (gop_clause o)) ops -> fo_term (arity sigarity) q ->
  exists a, index_unifiable ispred sigarity fn (gindex fn negp_ops ops) q = Some a /\
    (forall t id k, answers a (t, (id, k)) -> exists c i left p, In (id, c) ps /\ into_position c i left p t /\ neg_atom c i left p /\ k = pack c i left p) /\
    (forall id c i left p t, In (id, c) ps -> into_position c i left p t -> neg_atom c i left p -> unifiable q t -> answers a (t, (id, pack c i left p))).
Proof.
  intros O H F Q. destruct (history_entries _ _ _ _ negp_kind H) as [_ E].
  destruct (index_unif_ok ispred sigarity fn (gindex fn negp_ops ops) _ q O (rep_run sigarity fn O (flat_map negp_ops ops) fp_empty _ (rep_empty sigarity fn)
    (ol_fo sigarity (fun c => snd (clause_into_pos c 0)) (fun c => snd (clause_into_terms c)) negp_ops (fun c => proj2 (clause_terms_map c 0)) (fun _ _ => eq_refl) (fun _ _ => eq_refl) (negp_fo sigarity) ops F)) Q) as [a [A [B C]]].
  exists a. split; auto. split.
  - intros t id k An. apply B, E in An. destruct An as [id' [c [t' [k' [I [In' [= <- <- <-]]]]]]]. apply negp_spec in In'. destruct In' as [i [l [p X]]]. exists c, i, l, p. tauto.
  - intros id c i l p t I Ip Na U. apply C; auto. apply E. exists id, c, t, (pack c i l p). split; auto. split; auto. apply negp_spec. exists i, l, p. auto.
Qed.
(** The index of sides to paramodulate from. *)
Theorem C41_from (ispred : Z -> bool) (sigarity : Z -> nat) fn ops ps q :
  fpfun_ok fn -> history ops ps -> Forall (fun o => clause_fo (arity sigarity) (gop_clause o)) ops -> fo_term (arity sigarity) q ->
  exists a, index_unifiable ispred sigarity fn (gindex fn from_ops ops) q = Some a /\
    (forall t id k, answers a (t, (id, k)) -> exists c i left, In (id, c) ps /\ from_position c i left t /\ k = pack c i left []) /\
    (forall id c i left t, In (id, c) ps -> from_position c i left t -> unifiable q t -> answers a (t, (id, pack c i left []))).
Proof.
  intros O H F Q. destruct (history_entries _ _ _ _ from_kind H) as [_ E].
  destruct (index_unif_ok ispred sigarity fn (gindex fn from_ops ops) _ q O (rep_run sigarity fn O (flat_map from_ops ops) fp_empty _ (rep_empty sigarity fn)
    (ol_fo sigarity (fun c => clause_from_pos c 0) clause_from_terms from_ops (fun c => from_terms_map c 0) (fun _ _ => eq_refl) (fun _ _ => eq_refl) (from_fo sigarity) ops F)) Q) as [a [A [B C]]].
  exists a. split; auto. split.
  - intros t id k An. apply B, E in An. destruct An as [id' [c [t' [k' [I [In' [= <- <- <-]]]]]]]. apply from_spec in In'. destruct In' as [i [l X]]. exists c, i, l. tauto.
  - intros id c i l t I Ip U. apply C; auto. apply E. exists id, c, t, (pack c i l []). split; auto. split; auto. apply from_spec. exists i, l. auto.
Qed.

(** ** C39: candidates for backward rewriting *)
(** The search in the backward rewriting index for instances of [q] (the left hand side of a new rule). What is returned is an occurrence in a
    clause that is present (a side of a literal or an argument of one), with the flag for restricted rewriting. Found is every occurrence that is a side of a literal or, with
    lambda_demod off, an argument of one. Missing from the full property: all deeper occurrences. *)
Theorem C39_candidates_partial (ispred : Z -> bool) (sigarity : Z -> nat) fn ld ops ps q :
  fpfun_ok fn -> history ops ps -> Forall (fun o => clause_fo (arity sigarity) (gop_clause o)) ops -> fo_term (arity sigarity) q ->
  let a := index_matchable ispred sigarity fn (gindex fn (bw_ops ld) ops) q in
  let restricted (c : clause) i (left : bool) (p : list nat) := exists e, nth_error c i = Some e /\ maxi e = true /\ pos e = true /\ ori e = true /\ left = true /\ p = [] in
  (forall t id k, answers a (t, (id, k)) -> exists c i left p, In (id, c) ps /\ occurs c i left p t /\ isfun t /\ (length p <= (if ld then 0 else 1))%nat /\ ((k = 1 /\ restricted c i left p) \/ (k = 0 /\ ~ restricted c i left p))) /\
  (forall id c i left p t, In (id, c) ps -> occurs c i left p t -> isfun t -> (length p <= (if ld then 0 else 1))%nat -> instance q t ->
     exists k, answers a (t, (id, k)) /\ ((k = 1 /\ restricted c i left p) \/ (k = 0 /\ ~ restricted c i left p))).
Proof.
  intros O H F Q a restricted. destruct (history_entries _ _ _ _ (bw_kind ld) H) as [_ E].
  destruct (index_match_ok ispred sigarity fn (gindex fn (bw_ops ld) ops) _ q O (rep_run sigarity fn O (flat_map (bw_ops ld) ops) fp_empty _ (rep_empty sigarity fn) (bw_ops_fo sigarity ld ops F)) Q) as [B C].
  split.
  - intros t id k An. apply B, E in An. destruct An as [id' [c [t' [k' [I [[r [Ir Ek]] [= <- <- <-]]]]]]]. subst k. apply idx_in in Ir. destruct Ir as [Fu [i [e [l [p [En [S [L R]]]]]]]]. exists c, i, l, p. split; auto. split; [exists e; auto|]. split; auto. split; auto.
    destruct r; [left|right]; split; auto; unfold restricted.
    + exists e. split; auto. apply R. auto.
    + intros [e' [En' X]]. assert (e' = e) by congruence. subst e'. apply R in X. discriminate.
  - intros id c i l p t I [e [En S]] Fu L U.
    set (rb := maxi e && pos e && ori e && l && match p with [] => true | _ => false end).
    assert (R : rb = true <-> maxi e = true /\ pos e = true /\ ori e = true /\ l = true /\ p = []).
    { unfold rb. rewrite !andb_true_iff. destruct p; split; intros X; repeat split; try tauto; try discriminate; destruct X as [_ X]; try discriminate. destruct X as [_ [_ [_ X]]]. discriminate. }
    exists (restno rb). split.
    + apply C; auto. apply E. exists id, c, t, (restno rb). split; auto. split; auto. exists rb. split; auto. apply idx_in. split; auto. exists i, e, l, p. auto.
    + destruct rb; [left|right]; split; auto; unfold restricted.
      * exists e. split; auto. apply R. auto.
      * intros [e' [En' X]]. assert (e' = e) by congruence. subst e'. apply R in X. discriminate.
Qed.

(** The clause h(g(f(a))) = b is present; f(a) occurs in it and is an instance of f(x), but the search for f(x) returns nothing. *)
Definition ex39_sig (f : Z) : nat := if (f =? 30) || (f =? 31) || (f =? 32) then 1%nat else 0%nat.
Definition ex39_clause : clause := [mkeqn (Fun 32%nat [Fun 31%nat [Fun 30%nat [Fun 40%nat []]]]) (Fun 41%nat []) true true true true true false false].
Theorem C39_deep_subterm_missed_refuted : exists c id q t,
  history [GInsert id c] [(id, c)] /\ clause_fo (arity ex39_sig) c /\ fo_term (arity ex39_sig) q /\
  occurs c 0 true [0; 0]%nat t /\ isfun t /\ instance q t /\
  forall ispred fn ld k, fpfun_ok fn -> ~ answers (index_matchable ispred ex39_sig fn (gindex fn (bw_ops ld) [GInsert id c]) q) (t, (id, k)).
Proof.
  exists ex39_clause, 5%nat, (Fun 30%nat [Var 0%nat]), (Fun 30%nat [Fun 40%nat []]).
  assert (H : history [GInsert 5%nat ex39_clause] [(5%nat, ex39_clause)]) by (apply (history_insert [] []); [constructor|intros []]).
  assert (F : clause_fo (arity ex39_sig) ex39_clause) by (repeat constructor; cbn; repeat split; auto; try discriminate; lia).
  assert (Q : fo_term (arity ex39_sig) (Fun 30%nat [Var 0%nat])) by (cbn; repeat split; auto; try discriminate; lia).
  split; [exact H|]. split; [exact F|]. split; [exact Q|]. split; [eexists; split; reflexivity|]. split; [exact I|].
  split; [exists (fun _ => Fun 40%nat []); reflexivity|]. intros ispred fn ld k O An.
  assert (Fo : Forall (fun o => clause_fo (arity ex39_sig) (gop_clause o)) [GInsert 5%nat ex39_clause]) by (constructor; auto).
  destruct (C39_candidates_partial ispred ex39_sig fn ld _ _ _ O H Fo Q) as [B _]. destruct (B _ _ _ An) as [c [i [l [p [I [[e [E S]] [_ [L _]]]]]]]].
  destruct I as [[= <-]|[]]. destruct i as [|[|i]]; try discriminate E. injection E as <-. destruct p as [|j [|j' p]]; [destruct l; discriminate S| |destruct ld; cbn in L; lia].
  destruct l; [destruct j as [|[|j]]; discriminate S|destruct j; discriminate S].
Qed.

(** ** Non-vacuity *)
(** two clauses inserted, one deleted: f(g(x)) = a | ~p(f(b)) (maximal literal first) remains *)
Definition ex_lit1 := mkeqn (Fun 30%nat [Fun 31%nat [Var 0%nat]]) (Fun 40%nat []) true true true true true false false.
Definition ex_lit2 := mkeqn (Fun 32%nat [Fun 30%nat [Fun 41%nat []]]) ttrue false true true true true false false.
Definition ex_c : clause := [ex_lit1; ex_lit2].
Definition ex_hist := [GInsert 1%nat ex39_clause; GInsert 2%nat ex_c; GDelete 1%nat ex39_clause].
Example C41_history : history ex_hist [(2%nat, ex_c)].
Proof.
  apply (history_delete [GInsert 1%nat ex39_clause; GInsert 2%nat ex_c] [(2%nat, ex_c)] []). apply (history_insert [GInsert 1%nat ex39_clause]); [|intros [H|[]]; discriminate].
  apply (history_insert []); [constructor|intros []].
Qed.
Example C41_fo : Forall (fun o => clause_fo (arity ex39_sig) (gop_clause o)) ex_hist.
Proof. repeat constructor; cbn; repeat split; auto; try discriminate; lia. Qed.
Example C41_ex_into : index_unifiable (fun _ => false) ex39_sig FP2 (gindex FP2 into_ops ex_hist) (Fun 30%nat [Var 7%nat]) =
  Some [[(Fun 30%nat [Fun 31%nat [Var 0%nat]], [(2%nat, 0)])]; [(Fun 30%nat [Fun 41%nat []], [(2%nat, 9)])]].
Proof. vm_compute. reflexivity. Qed.
Example C41_ex_negp : index_unifiable (fun _ => false) ex39_sig FPdt (gindex FPdt negp_ops ex_hist) (Fun 32%nat [Var 7%nat]) = Some [[(Fun 32%nat [Fun 30%nat [Fun 41%nat []]], [(2%nat, 7)])]].
Proof. vm_compute. reflexivity. Qed.
Example C41_ex_from : index_unifiable (fun _ => false) ex39_sig FP7 (gindex FP7 from_ops ex_hist) (Fun 30%nat [Var 7%nat]) = Some [[(Fun 30%nat [Fun 31%nat [Var 0%nat]], [(2%nat, 0)])]].
Proof. vm_compute. reflexivity. Qed.
Example C40_ex : occurs ex_c 1 true [0]%nat (Fun 30%nat [Fun 41%nat []]) /\ pack ex_c 1 true [0]%nat = 9 /\ unpack ex_c 9 = Some (1%nat, true, [0]%nat).
Proof. split; [eexists; split; reflexivity|]. split; reflexivity. Qed.

Print Assumptions C39_candidates_partial.
Print Assumptions C39_deep_subterm_missed_refuted.
Print Assumptions C40_unpack_pack.
Print Assumptions C40_injective.
Print Assumptions C40_literals.
Print Assumptions C41_into.
Print Assumptions C41_negp.
Print Assumptions C41_from.
