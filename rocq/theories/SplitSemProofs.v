(** Proofs: splitting and the models of the clauses. *)
From Coq Require Import Permutation.
From Verif Require Import Terms Unify Semantics Clauses ClausesProofs Subsume SubsumeProofs SubsumeClause Split SplitProofs.

(** Structures over one domain. *)
Definition mk (D : Type) (so : sort -> D -> Prop) (F : sym -> list D -> D) : structure := {| dom := D; ifun := F; isort := so |}.
Lemma mk_eta M : M = mk (dom M) (isort M) (ifun M).
Proof. destruct M; reflexivity. Qed.

(** The truth of a family of statements over tuples as long as [sv] can be tabulated (for a refutation). *)
Definition tabulable (sv : list var) : Prop := forall (D : Type) (Q : list D -> Prop),
  ((exists dec : list D -> bool, forall ds, length ds = length sv -> (dec ds = true <-> Q ds)) -> False) -> False.
Lemma tabulable_nil : tabulable [].
Proof.
  intros D Q K. assert (NN : ~ ~ (Q [] \/ ~ Q [])) by tauto. apply NN. intros [H|H]; apply K.
  - exists (fun _ => true). intros [|d ds] L; [tauto|discriminate].
  - exists (fun _ => false). intros [|d ds] L; [split; [discriminate|tauto]|discriminate].
Qed.

Lemma perm_exists {A} (P : A -> Prop) l l' : Permutation l l' -> Exists P l -> Exists P l'.
Proof. intros H. rewrite !Exists_exists. intros [x [A1 A2]]. exists x. split; auto. eapply Permutation_in; eauto. Qed.
Lemma exists_decide {A} (P : A -> Prop) l : (forall x, In x l -> P x \/ ~ P x) -> Exists P l \/ ~ Exists P l.
Proof.
  induction l as [|a l IH]; intros H; [right; intros X; inversion X|]. destruct (H a (or_introl eq_refl)) as [Y|N]; [left; left; auto|].
  destruct IH as [Y|N2]; [intros; apply H; right; auto|left; right; auto|]. right. intros X. inversion X; subst; auto.
Qed.

Section Sem.
  Variable E : env.
  Hypothesis HE : env_ok E.
  Notation S := (srt E).
  Section Dom.
  Variables (D : Type) (so : sort -> D -> Prop).
  Notation MK := (mk D so).
  Notation good F := (model_ok S (dist E) (MK F)).
  Definition agree (n : sym) (F F' : sym -> list D -> D) : Prop := forall f ds, f < n -> F f ds = F' f ds.

  Lemma agree_eval n F F' (v : var -> D) t : agree n F F' -> (forall f, In f (tsyms t) -> f < n) -> eval (MK F) v t = eval (MK F') v t.
  Proof.
    intros A. induction t as [x|f a IH] using term_ind'; intros B; cbn [eval]; auto. cbn [ifun mk].
    rewrite (A f); [|apply B; left; auto]. f_equal. apply map_ext_in. intros y Hy. rewrite Forall_forall in IH. apply IH; auto.
    intros g Hg. apply B. right. apply in_flat_map. eauto.
  Qed.
  Lemma agree_holds n F F' (v : var -> D) e : agree n F F' -> (forall f, In f (lit_syms e) -> f < n) -> (holds (MK F) v e <-> holds (MK F') v e).
  Proof.
    intros A B. unfold holds, lit_holds. assert (forall t, (forall f, In f (tsyms t) -> In f (lit_syms e)) -> eval (MK F) v t = eval (MK F') v t) as X.
    { intros t Ht. apply (agree_eval n); auto. }
    pose proof (X (lt e) ltac:(intros f Hf; apply in_or_app; left; auto)) as X1. pose proof (X (rt e) ltac:(intros f Hf; apply in_or_app; right; auto)) as X2.
    change (dom (MK F)) with D in *. change (dom (MK F')) with D in *. rewrite X1, X2. tauto.
  Qed.
  Lemma agree_exists n F F' (v : var -> D) l : agree n F F' -> below n l -> (Exists (holds (MK F) v) l <-> Exists (holds (MK F') v) l).
  Proof.
    intros A B. rewrite !Exists_exists. split; intros [e [H1 H2]]; exists e; split; auto; apply (agree_holds n F F' v e); auto; intros f Hf; apply (B e f); auto.
  Qed.
  Lemma agree_true n F F' l : agree n F F' -> below n l -> (clause_true S (MK F) l <-> clause_true S (MK F') l).
  Proof. intros A B. split; intros H v Hv; apply (agree_exists n F F' v l A B); apply H; exact Hv. Qed.
  Lemma agree_le n m F F' : n <= m -> agree m F F' -> agree n F F'.
  Proof. intros L A f ds Hf. apply A. lia. Qed.
  Lemma agree_trans n F1 F2 F3 : agree n F1 F2 -> agree n F2 F3 -> agree n F1 F3.
  Proof. intros A B f ds Hf. rewrite A, B; auto. Qed.

  (** [p] over [sv] means: the clause [l] is not true for all values of its other variables *)
  Definition means (F : sym -> list D -> D) (sv : list var) (p : sym) (l : list eqn) : Prop :=
    forall ds, length ds = length sv -> (F p ds = F true_code [] <-> ~ (forall v, respects S (MK F) v -> map v sv = ds -> Exists (holds (MK F) v) l)).
  Lemma means_agree n F F' sv p l : agree n F F' -> 2 < n -> p < n -> below n l -> means F sv p l -> means F' sv p l.
  Proof.
    intros A N P B H ds L. rewrite <- (A p ds P), <- (A true_code []) by (unfold true_code; lia). rewrite (H ds L).
    split; intros X Y; apply X; intros v Hv Ev; apply (agree_exists n F F' v l A B); apply Y; auto.
  Qed.

  (** the store *)
  Definition store_ok (n : sym) (st : defstore) : Prop := forall d p, In (d, p) st -> p < n /\ clause_ok E d /\ below n d /\ declared E [] p (Datatypes.S p).
  Definition store_means F (st : defstore) : Prop := forall d p, In (d, p) st -> means F [] p d.
  Lemma means_same F sv p l l' : (forall v, respects S (MK F) v -> (Exists (holds (MK F) v) l <-> Exists (holds (MK F) v) l')) -> means F sv p l -> means F sv p l'.
  Proof. intros H M ds L. rewrite (M ds L). split; intros X Y; apply X; intros v Hv Ev; apply (H v Hv); apply Y; auto. Qed.
  (* without split variables only the truth of the clause matters *)
  Lemma means_same0 F p l l' : (clause_true S (MK F) l <-> clause_true S (MK F) l') -> means F [] p l -> means F [] p l'.
  Proof.
    intros H M ds L. rewrite (M ds L). destruct ds; [|discriminate]. split; intros X Y; apply X; intros v Hv _; apply H; auto; intros w Hw; apply Y; auto.
  Qed.

  Definition pdecl (sv : list var) (p : sym) : Prop := declared E sv p (Datatypes.S p).
  Lemma pdecl_at sv p : pdecl sv p -> fres S p = fres S true_code /\ fargs S p = map (vsort S) sv /\ dist E p = false.
  Proof. intros H. apply H. lia. Qed.
  Lemma def_term_wf sv p : pdecl sv p -> wf S (Fun p (map Var sv)) /\ tsort S (Fun p (map Var sv)) = tsort S ttrue.
  Proof.
    intros H. apply pdecl_at in H. destruct H as [A [B _]]. split; [|exact A]. apply wf_fun. split.
    - apply Forall_forall. intros t Ht. apply in_map_iff in Ht. destruct Ht as [x [<- _]]. reflexivity.
    - rewrite B, map_map. apply map_ext. reflexivity.
  Qed.
  Lemma def_lit_ok sv p s : pdecl sv p -> Forall (fun x => is_fresh x = false) sv -> eqn_ok E (def_lit E p s sv).
  Proof.
    intros H P. destruct (def_term_wf sv p H). apply eqn_alloc_ok; auto; [apply wf_true; auto| |intros x []].
    intros x Hx. cbn [vars] in Hx. apply in_flat_map in Hx. destruct Hx as [t [Ht Hx]]. apply in_map_iff in Ht. destruct Ht as [y [<- Hy]].
    destruct Hx as [<-|[]]. rewrite Forall_forall in P. auto.
  Qed.
  Lemma def_lit_holds F v sv p s : good F -> respects S (MK F) v -> pdecl sv p ->
    (holds (MK F) v (def_lit E p s sv) <-> if s then F p (map v sv) = F true_code [] else F p (map v sv) <> F true_code []).
  Proof.
    intros G Hv H. destruct (def_term_wf sv p H). unfold def_lit. rewrite (eqn_alloc_holds E (MK F) HE G v); auto; [|apply wf_true; auto].
    unfold lit_holds. cbn [eval ttrue map]. rewrite map_map. reflexivity.
  Qed.
  Lemma def_lit_syms sv p s f : In f (lit_syms (def_lit E p s sv)) -> f = p \/ f = true_code.
  Proof.
    unfold def_lit, eqn_alloc, lit_syms.
    assert (V : forall f, In f (flat_map tsyms (map Var sv)) -> False).
    { intros g Hg. apply in_flat_map in Hg. destruct Hg as [t [Ht Hg]]. apply in_map_iff in Ht. destruct Ht as [y [<- _]]. destruct Hg. }
    replace (term_eqb ttrue tfalse) with false by reflexivity.
    destruct (term_eqb (Fun p (map Var sv)) tfalse); [|destruct (term_eqb (Fun p (map Var sv)) ttrue)].
    - replace (term_eqb ttrue ttrue) with true by reflexivity. cbn. intros [H|[H|[]]]; auto.
    - cbn. intros [H|[H|H]]; auto. apply V in H. destruct H.
    - cbn. rewrite in_app_iff. cbn. intros [H|[H|[H|[]]]]; auto. apply V in H. destruct H.
  Qed.

  Lemma true_sort F : good F -> so (fres S true_code) (F true_code []) /\ so (fres S true_code) (F false_code []).
  Proof.
    intros G. split.
    - apply (mo_fun _ _ _ G true_code []). rewrite (eo_true E HE). constructor.
    - rewrite (eo_tf E HE). apply (mo_fun _ _ _ G false_code []). rewrite (eo_false E HE). constructor.
  Qed.
  Lemma exists_dec F v l : good F -> Exists (holds (MK F) v) l \/ ~ Exists (holds (MK F) v) l.
  Proof. intros G. apply exists_decide. intros e _. apply (lit_holds_dec S (dist E) (MK F) v _ _ _ G). Qed.

  (** a new predicate can be given its meaning *)
  Lemma new_pred F sv n l : tabulable sv -> good F -> 2 < n -> pdecl sv n -> below n l ->
    (forall F1, good F1 -> agree n F F1 -> means F1 sv n l -> False) -> False.
  Proof.
    intros TB G N PD B K. apply (TB D (fun ds => ~ (forall v, respects S (MK F) v -> map v sv = ds -> Exists (holds (MK F) v) l))). intros [dec Hd].
    set (F1 := fun f ds => if Nat.eqb f n then (if dec ds then F true_code [] else F false_code []) else F f ds).
    assert (A : agree n F F1) by (intros f ds Hf; unfold F1; destruct (Nat.eqb_spec f n); [lia|auto]).
    assert (T1 : F1 true_code [] = F true_code []) by (symmetry; apply A; unfold true_code; lia).
    assert (T2 : F1 false_code [] = F false_code []) by (symmetry; apply A; unfold false_code; lia).
    destruct (pdecl_at sv n PD) as [P1 [P2 P3]]. destruct (true_sort F G) as [S1 S2].
    apply (K F1); auto.
    - constructor; cbn [mk dom ifun isort].
      + intros f ds H. unfold F1. destruct (Nat.eqb_spec f n) as [->|]; [|apply (mo_fun _ _ _ G); auto]. rewrite P1. destruct (dec ds); auto.
      + apply (mo_inh _ _ _ G).
      + rewrite T1, T2. apply (mo_bool _ _ _ G).
      + rewrite T1, T2. apply (mo_tf _ _ _ G).
      + apply (mo_dec _ _ _ G).
      + intros f g Hf Hg. unfold F1. destruct (Nat.eqb_spec f n) as [->|]; [congruence|]. destruct (Nat.eqb_spec g n) as [->|]; [congruence|]. apply (mo_dist _ _ _ G); auto.
    - intros ds L. rewrite T1. unfold F1 at 1. rewrite Nat.eqb_refl. specialize (Hd ds L).
      assert (X : (forall v, respects S (MK F) v -> map v sv = ds -> Exists (holds (MK F) v) l) <-> (forall v, respects S (MK F1) v -> map v sv = ds -> Exists (holds (MK F1) v) l)).
      { split; intros Y v Hv Ev; apply (agree_exists n F F1 v l A B); apply Y; auto. }
      rewrite <- X, <- Hd. pose proof (mo_tf _ _ _ G) as TF. cbn in TF. destruct (dec ds); split; auto; try congruence.
  Qed.
  (** a clause with its predicate: one of them holds *)
  Lemma means_def F sv p l : good F -> pdecl sv p -> means F sv p l -> clause_true S (MK F) (clause_alloc (def_lit E p true sv :: l)).
  Proof.
    intros G PD M v Hv. apply clause_alloc_holds. destruct (exists_dec F v l G) as [Y|NY]; [right; auto|left].
    apply (def_lit_holds F v sv p true G Hv PD). apply M; [apply map_length|]. intros X. apply NY. apply X; auto.
  Qed.

  Variable lookup : defstore -> clause -> option (clause * sym).
  Hypothesis LK : lookup_ok E lookup.

  Lemma clause_alloc_ok l : clause_ok E l -> clause_ok E (clause_alloc l).
  Proof. unfold clause_ok. rewrite !Forall_forall. intros H e He. apply (proj1 (clause_alloc_in _ _)) in He. auto. Qed.
  Lemma clause_alloc_below n l : below n l -> below n (clause_alloc l).
  Proof. intros H e f He. apply (proj1 (clause_alloc_in _ _)) in He. apply H. auto. Qed.
  Lemma sorted_ok l : clause_ok E l -> clause_ok E (sort_lits (clause_alloc l)).
  Proof. intros H. eapply Permutation_Forall; [apply Permutation_sym, sort_lits_perm|]. apply clause_alloc_ok; auto. Qed.
  Lemma sorted_below n l : below n l -> below n (sort_lits (clause_alloc l)).
  Proof. intros H e f He. apply (Permutation_in _ (sort_lits_perm _)) in He. apply clause_alloc_below with (n := n) in H. apply H. auto. Qed.
  Lemma sorted_exists (M : structure) (v : var -> dom M) l : Exists (holds M v) (sort_lits (clause_alloc l)) <-> Exists (holds M v) l.
  Proof.
    rewrite <- (clause_alloc_holds M v l). split; apply perm_exists; [|apply Permutation_sym]; apply sort_lits_perm.
  Qed.
  Lemma below_le n m c : n <= m -> below n c -> below m c.
  Proof. intros L B e f He Hf. specialize (B e f He Hf). lia. Qed.

  (** shape of one round *)
  Inductive round (sv : list var) (st : defstore) (n : sym) (l : list eqn) : sym -> option clause -> defstore -> sym -> Prop :=
  | round_new st' : (st' = st \/ (sv = [] /\ st' = (sort_lits (clause_alloc l), n) :: st)) ->
      round sv st n l n (Some (clause_alloc (def_lit E n true sv :: l))) st' (Datatypes.S n)
  | round_old d p : sv = [] -> In (d, p) st -> (exists fuel, clause_subsumes E fuel d (sort_lits (clause_alloc l)) = Ans true /\ clause_subsumes E fuel (sort_lits (clause_alloc l)) d = Ans true) ->
      round sv st n l p None st n.
  Lemma one_def_round fd sv st n l p d st1 n1 : one_def E lookup fd sv st n l = (p, d, st1, n1) -> round sv st n l p d st1 n1.
  Proof.
    unfold one_def, get_definitions. destruct sv as [|x sv]; [|intros [= <- <- <- <-]; constructor; auto]. destruct fd; [intros [= <- <- <- <-]; constructor; auto|].
    destruct (lookup st (sort_lits (clause_alloc l))) as [[d' p']|] eqn:L; intros [= <- <- <- <-]; [|constructor; auto].
    destruct (LK _ _ _ _ L) as [I X]. eapply round_old; eauto.
  Qed.

  Lemma subsumes_iff (M : structure) fuel d l : model_ok S (dist E) M -> clause_ok E d -> clause_ok E l ->
    clause_subsumes E fuel d (sort_lits (clause_alloc l)) = Ans true -> clause_subsumes E fuel (sort_lits (clause_alloc l)) d = Ans true ->
    (clause_true S M d <-> clause_true S M l).
  Proof.
    intros G OD OL H1 H2. pose proof (sorted_ok l OL) as OS. split; intros T.
    - pose proof (clause_subsumes_true E fuel M d _ OD OS G H1 T) as X. intros v Hv. apply sorted_exists. apply X; auto.
    - apply (clause_subsumes_true E fuel M _ d OS OD G H2). intros v Hv. apply sorted_exists. apply T; auto.
  Qed.

  Lemma round_wf sv st n l p d st1 n1 : round sv st n l p d st1 n1 -> store_ok n st -> clause_ok E l -> below n l -> declared E sv n n1 -> 2 < n ->
    Forall (fun x => is_fresh x = false) sv ->
    n <= n1 /\ p < n1 /\ pdecl sv p /\ store_ok n1 st1 /\ (forall x, d = Some x -> clause_ok E x /\ below n1 x).
  Proof.
    intros R SO OL BL DC N FR. destruct R as [st' Hst|d p -> I _].
    - assert (PD : pdecl sv n) by (intros f Hf; apply DC; lia).
      split; [lia|]. split; [lia|]. split; auto. split.
      + assert (store_ok (Datatypes.S n) st).
        { intros d p I. destruct (SO d p I) as [A [B [C F]]]. split; [lia|]. split; auto. split; auto. eapply below_le; [|exact C]; lia. }
        destruct Hst as [->|[-> ->]]; auto. intros d p [[= <- <-]|I]; auto. split; [lia|]. split; [apply sorted_ok; auto|].
        split; [eapply below_le; [|apply sorted_below; exact BL]; lia|exact PD].
      + intros x [= <-]. split.
        * apply clause_alloc_ok. constructor; auto. apply def_lit_ok; auto.
        * apply clause_alloc_below. intros e f [<-|He] Hf.
          -- apply def_lit_syms in Hf. unfold true_code in *. lia.
          -- specialize (BL e f He Hf). lia.
    - destruct (SO d p I) as [A [B [C F]]]. split; auto. split; auto. split; auto. split; auto. intros x [=].
  Qed.
  Lemma round_means F sv st n l p d st1 n1 : round sv st n l p d st1 n1 -> tabulable sv -> good F -> store_ok n st -> store_means F st ->
    clause_ok E l -> below n l -> declared E sv n n1 -> 2 < n ->
    (forall F1, good F1 -> agree n F F1 -> store_means F1 st1 -> means F1 sv p l -> (forall x, d = Some x -> clause_true S (MK F1) x) -> False) -> False.
  Proof.
    intros R TB G SO SM OL BL DC N K. destruct R as [st' Hst|d p -> I [fuel [H1 H2]]].
    - assert (PD : pdecl sv n) by (intros f Hf; apply DC; lia). apply (new_pred F sv n l TB G N PD BL). intros F1 G1 A1 M1.
      apply (K F1); auto.
      + assert (SM1 : store_means F1 st).
        { intros d p I. destruct (SO d p I) as [Q1 [Q2 [Q3 _]]]. apply (means_agree n F F1); auto. }
        destruct Hst as [->|[Z ->]]; auto. intros d p [[= <- <-]|I]; auto. rewrite Z in M1. eapply means_same; [|exact M1]. intros v Hv. symmetry. apply sorted_exists.
      + intros x [= <-]. apply means_def; auto.
    - destruct (SO d p I) as [Q1 [Q2 [Q3 Q4]]]. apply (K F); auto; [intros f ds Hf; auto| |intros x [=]].
      apply (means_same0 F p d l); [|apply SM; auto]. eapply subsumes_iff; eauto.
  Qed.

  Lemma make_defs_wf fd sv : Forall (fun x => is_fresh x = false) sv -> forall bs st n join ds j st' n', make_defs E lookup fd sv bs st n join = (ds, j, st', n') ->
    store_ok n st -> Forall (clause_ok E) bs -> Forall (below n) bs -> clause_ok E join -> below n join -> declared E sv n n' -> 2 < n ->
    n <= n' /\ store_ok n' st' /\ Forall (clause_ok E) ds /\ Forall (below n') ds /\ clause_ok E j /\ below n' j.
  Proof.
    intros FR. induction bs as [|l bs IH]; intros st n join ds j st' n' H SO OB BB OJ BJ DC N; cbn [make_defs] in H.
    - injection H as <- <- <- <-. auto 10.
    - destruct (one_def E lookup fd sv st n l) as [[[p d] st1] n1] eqn:O. destruct (make_defs E lookup fd sv bs st1 n1 (def_lit E p false sv :: join)) as [[[ds2 j2] st2] n2] eqn:MD.
      injection H as <- <- <- <-. apply one_def_round in O.
      assert (L1 : n <= n1) by (inversion O; lia).
      assert (L2 : n1 <= n2).
      { clear - MD LK. revert st1 n1 ds2 j2 st2 n2 MD. generalize (def_lit E p false sv :: join). induction bs as [|l2 bs IH]; intros jj st1 n1 ds2 j2 st2 n2 MD; cbn [make_defs] in MD.
        - injection MD as _ _ _ <-. auto.
        - destruct (one_def E lookup fd sv st1 n1 l2) as [[[p3 d3] st3] n3] eqn:O3. destruct (make_defs E lookup fd sv bs st3 n3 (def_lit E p3 false sv :: jj)) as [[[ds4 j4] st4] n4] eqn:MD4.
          injection MD as _ _ _ <-. apply IH in MD4. apply one_def_round in O3. inversion O3; lia. }
      assert (DC1 : declared E sv n n1) by (intros f Hf; apply DC; lia).
      assert (DC2 : declared E sv n1 n2) by (intros f Hf; apply DC; lia).
      destruct (round_wf _ _ _ _ _ _ _ _ O SO (Forall_inv OB) (Forall_inv BB) DC1 N FR) as [_ [P1 [PD [SO1 Hd]]]].
      destruct (IH _ _ _ _ _ _ _ MD SO1 (Forall_inv_tail OB)) as [A1 [A2 [A3 [A4 [A5 A6]]]]]; auto; try lia.
      + eapply Forall_impl; [|exact (Forall_inv_tail BB)]. intros c Hc; exact (below_le n n1 c L1 Hc).
      + constructor; auto. apply def_lit_ok; auto.
      + intros e f [<-|He] Hf; [apply def_lit_syms in Hf; unfold true_code in *; lia|specialize (BJ e f He Hf); lia].
      + split; [lia|]. split; auto. destruct d as [x|]; auto. destruct (Hd x eq_refl) as [X1 X2]. split; [constructor; auto|]. split; [|auto].
        constructor; auto. eapply below_le; [|exact X2]. auto.
  Qed.

  (** every block has a predicate with its meaning, and the joint clause is made of their negations *)
  Lemma make_defs_means fd sv : Forall (fun x => is_fresh x = false) sv -> tabulable sv -> forall bs F st n join ds j st' n', make_defs E lookup fd sv bs st n join = (ds, j, st', n') ->
    good F -> store_ok n st -> store_means F st -> Forall (clause_ok E) bs -> Forall (below n) bs -> declared E sv n n' -> 2 < n ->
    (forall F1 ps, good F1 -> agree n F F1 -> store_means F1 st' -> Forall2 (means F1 sv) ps bs -> Forall (pdecl sv) ps -> j = rev (map (fun p => def_lit E p false sv) ps) ++ join ->
       Forall (clause_true S (MK F1)) ds -> n <= n' -> Forall (fun p => p < n') ps -> store_ok n' st' -> False) -> False.
  Proof.
    intros FR TB. induction bs as [|l bs IH]; intros F st n join ds j st' n' H G SO SM OB BB DC N K; cbn [make_defs] in H.
    - injection H as <- <- <- <-. apply (K F []); auto. intros f ds Hf; auto.
    - destruct (one_def E lookup fd sv st n l) as [[[p d] st1] n1] eqn:O. destruct (make_defs E lookup fd sv bs st1 n1 (def_lit E p false sv :: join)) as [[[ds2 j2] st2] n2] eqn:MD.
      injection H as <- <- <- <-. apply one_def_round in O.
      assert (L1 : n <= n1) by (inversion O; lia).
      assert (L2 : n1 <= n2).
      { clear - MD LK. revert st1 n1 ds2 j2 st2 n2 MD. generalize (def_lit E p false sv :: join). induction bs as [|l2 bs IH]; intros jj st1 n1 ds2 j2 st2 n2 MD; cbn [make_defs] in MD.
        - injection MD as _ _ _ <-. auto.
        - destruct (one_def E lookup fd sv st1 n1 l2) as [[[p3 d3] st3] n3] eqn:O3. destruct (make_defs E lookup fd sv bs st3 n3 (def_lit E p3 false sv :: jj)) as [[[ds4 j4] st4] n4] eqn:MD4.
          injection MD as _ _ _ <-. apply IH in MD4. apply one_def_round in O3. inversion O3; lia. }
      assert (DC1 : declared E sv n n1) by (intros f Hf; apply DC; lia).
      assert (DC2 : declared E sv n1 n2) by (intros f Hf; apply DC; lia).
      destruct (round_wf _ _ _ _ _ _ _ _ O SO (Forall_inv OB) (Forall_inv BB) DC1 N FR) as [_ [P1 [PD [SO1 Hd]]]].
      apply (round_means F _ _ _ _ _ _ _ _ O TB G SO SM (Forall_inv OB) (Forall_inv BB) DC1 N). intros F1 G1 A1 SM1 ME1 D1.
      assert (BB1 : Forall (below n1) bs) by (eapply Forall_impl; [|exact (Forall_inv_tail BB)]; intros c Hc; exact (below_le n n1 c L1 Hc)).
      apply (IH F1 st1 n1 _ _ _ _ _ MD G1 SO1 SM1 (Forall_inv_tail OB) BB1 DC2); [lia|].
      intros F2 ps G2 A2 SM2 ME2 PD2 EJ D2 LN PN SO2. apply (K F2 (p :: ps)); auto.
      + eapply agree_trans; [exact A1|]. eapply agree_le; [|exact A2]. auto.
      + constructor; auto. apply (means_agree n1 F1 F2); auto; [lia|]. eapply below_le; [|exact (Forall_inv BB)]. auto.
      + rewrite EJ. cbn [map rev]. rewrite <- app_assoc. reflexivity.
      + destruct d as [x|]; auto. constructor; auto. apply (agree_true n1 F1 F2); auto. apply (Hd x eq_refl).
      + lia.
      + constructor; auto. lia.
  Qed.

  (** the joint clause is true because the blocks share no variables outside [sv] *)
  Lemma choose_values F sv (v : var -> D) : good F -> forall bs ps, Forall2 (means F sv) ps bs ->
    (forall p, In p ps -> F p (map v sv) = F true_code []) ->
    (forall ws : list (var -> D), Forall2 (fun w b => respects S (MK F) w /\ map w sv = map v sv /\ ~ Exists (holds (MK F) w) b) ws bs -> False) -> False.
  Proof.
    intros G bs ps H. induction H as [|p b ps bs M _ IH]; intros T K; [apply (K []); constructor|].
    pose proof (proj1 (M (map v sv) (map_length _ _)) (T p (or_introl eq_refl))) as NQ. apply NQ. intros w Hw Ew.
    destruct (exists_dec F w b G) as [Y|N]; auto. exfalso. apply IH; [intros; apply T; right; auto|]. intros ws Hws. apply (K (w :: ws)). constructor; auto.
  Qed.
  Fixpoint merge (ws : list (var -> D)) (bs : list (list eqn)) (v : var -> D) (x : var) : D :=
    match ws, bs with
    | w :: ws', b :: bs' => if mem x (flat_map lit_vars b) then w x else merge ws' bs' v x
    | _, _ => v x
    end.
  Lemma merge_respects F bs (v : var -> D) : respects S (MK F) v -> forall ws, Forall (respects S (MK F)) ws -> respects S (MK F) (merge ws bs v).
  Proof.
    intros Hv. intros ws. revert ws. induction bs as [|b bs IH]; intros [|w ws] H x; cbn [merge]; auto.
    destruct (mem x (flat_map lit_vars b)); [apply (Forall_inv H)|apply IH; exact (Forall_inv_tail H)].
  Qed.
  Lemma same_on (w v : var -> D) sv x : map w sv = map v sv -> In x sv -> w x = v x.
  Proof. induction sv as [|y sv IH]; intros Eq [].
    - subst y. cbn in Eq. congruence.
    - apply IH; auto. cbn in Eq. congruence.
  Qed.
  Lemma merge_at sv (v : var -> D) x : forall bs ws k b w, nth_error bs k = Some b -> nth_error ws k = Some w -> In x (flat_map lit_vars b) ->
    Forall (fun w : var -> D => map w sv = map v sv) ws ->
    (forall i b', i < k -> nth_error bs i = Some b' -> In x (flat_map lit_vars b') -> In x sv) -> merge ws bs v x = w x.
  Proof.
    induction bs as [|b0 bs IH]; intros ws k b w Hb Hw X SV Dj; [destruct k; discriminate|]. destruct ws as [|w0 ws]; [destruct k; discriminate|].
    cbn [merge]. destruct k as [|k]; cbn in Hb, Hw.
    - injection Hb as ->. injection Hw as ->. apply mem_In in X. rewrite X. auto.
    - destruct (mem x (flat_map lit_vars b0)) eqn:M.
      + apply mem_In in M. pose proof (Dj 0 b0 ltac:(lia) eq_refl M) as IS.
        rewrite (same_on w0 v sv x (Forall_inv SV) IS). symmetry. apply (same_on w v sv x); auto.
        rewrite Forall_forall in SV. apply SV. right. eapply nth_error_In; eauto.
      + apply (IH ws k b w); auto; [exact (Forall_inv_tail SV)|]. intros i b' Hi Hb'. apply (Dj (Datatypes.S i) b'); auto. lia.
  Qed.
  Lemma holds_same_vars F (v w : var -> D) e : (forall x, In x (lit_vars e) -> v x = w x) -> (holds (MK F) v e <-> holds (MK F) w e).
  Proof.
    intros H. unfold holds, lit_holds. rewrite (eval_ext (MK F) v w (lt e)), (eval_ext (MK F) v w (rt e)); [tauto| |]; intros x Hx; apply H; apply in_or_app; auto.
  Qed.
  Lemma forall2_nth {A B} (R : A -> B -> Prop) l l' : Forall2 R l l' -> forall k b, nth_error l' k = Some b -> exists a, nth_error l k = Some a /\ R a b.
  Proof. intros H. induction H as [|a b l l' H0 _ IH]; intros [|k] b' E'; cbn in E'; try discriminate; [injection E' as <-; exists a; auto|]. apply IH. auto. Qed.

  Lemma joint_true how F sv c bs ps : good F -> partition_ok how sv c bs -> clause_true S (MK F) c -> Forall2 (means F sv) ps bs -> Forall (pdecl sv) ps ->
    clause_true S (MK F) (rev (map (fun p => def_lit E p false sv) ps)).
  Proof.
    intros G PT CT ME PD v Hv. set (j := rev _). destruct (exists_dec F v j G) as [Y|N]; auto. exfalso.
    assert (T : forall p, In p ps -> F p (map v sv) = F true_code []).
    { intros p Hp. destruct (mo_dec _ _ _ G (F p (map v sv)) (F true_code [])) as [Y|N2]; auto. exfalso. apply N. apply Exists_exists. exists (def_lit E p false sv). split.
      - unfold j. apply -> in_rev. apply in_map_iff. eauto.
      - rewrite Forall_forall in PD. apply (def_lit_holds F v sv p false); auto. }
    apply (choose_values F sv v G bs ps ME T). intros ws Hws.
    assert (SV : Forall (fun w : var -> D => map w sv = map v sv) ws) by (clear - Hws; induction Hws as [|w b ws bs [_ [H _]] _ IH]; constructor; auto).
    assert (RS : Forall (respects S (MK F)) ws) by (clear - Hws; induction Hws as [|w b ws bs [H _] _ IH]; constructor; auto).
    pose proof (CT (merge ws bs v) (merge_respects F bs v Hv ws RS)) as X. apply Exists_exists in X. destruct X as [e [He Hh]].
    apply (Permutation_in _ (Permutation_sym (pt_perm how sv c bs PT))) in He. apply in_concat in He. destruct He as [b [Hb Heb]].
    apply In_nth_error in Hb. destruct Hb as [k Hk]. destruct (forall2_nth _ _ _ Hws k b Hk) as [w [Hw [_ [_ NH]]]]. apply NH. apply Exists_exists. exists e. split; auto.
    apply (holds_same_vars F (merge ws bs v) w e); auto. intros x Hx. apply (merge_at sv v x bs ws k b w); auto.
    - apply in_flat_map. eauto.
    - intros i b' Hi Hb' Hx'. apply in_flat_map in Hx'. destruct Hx' as [e' [He' Hx']]. apply (pt_disj how sv c bs PT i k b' b x e' e); auto. lia.
  Qed.
  End Dom.

  (** ** Histories *)
  Lemma def_lit_holds' (M : structure) (v : var -> dom M) sv p s : model_ok S (dist E) M -> respects S M v -> pdecl sv p ->
    (holds M v (def_lit E p s sv) <-> if s then ifun M p (map v sv) = ifun M true_code [] else ifun M p (map v sv) <> ifun M true_code []).
  Proof. destruct M as [D F so]. intros G Hv H. apply (def_lit_holds D so F v sv p s G Hv H). Qed.
  Variable lookup : defstore -> clause -> option (clause * sym).
  Hypothesis LK : lookup_ok E lookup.
  Definition wf_state (s : pstate) : Prop := Forall (clause_ok E) (pset s) /\ Forall (below (pnext s)) (pset s) /\ store_ok (pnext s) (pstore s) /\ 2 < pnext s.

  Lemma clause_split_inv how fd sv flagged st n c r : clause_split E lookup how fd sv flagged st n c = Some (Some r) ->
    exists bs, partition_ok how sv c bs /\ make_defs E lookup fd sv bs st n [] = (new_defs r, rest r, new_store r, new_next r) /\ count r = Datatypes.S (length bs) /\ 2 <= length bs.
  Proof.
    unfold clause_split. destruct ((length c <=? 1) || flagged) eqn:Q; [discriminate|]. apply orb_false_iff in Q. destruct Q as [Q _]. apply Nat.leb_gt in Q.
    destruct (split_table how sv c) as [[part t]|] eqn:ST; [|discriminate]. destruct (Nat.ltb 1 part) eqn:P; [|discriminate]. apply Nat.ltb_lt in P.
    destruct (make_defs E lookup fd sv (blocks t part) st n []) as [[[ds j] st'] n'] eqn:MD. intros [= <-]. exists (blocks t part). cbn [new_defs rest new_store new_next count].
    split; [apply partition_spec; auto; intros ->; cbn in Q; lia|]. split; auto. unfold blocks. rewrite map_length, seq_length. auto.
  Qed.
  Lemma blocks_wf how sv c bs n : partition_ok how sv c bs -> clause_ok E c -> below n c -> Forall (clause_ok E) bs /\ Forall (below n) bs.
  Proof.
    intros PT OC BC. assert (IN : forall b e, In b bs -> In e b -> In e c).
    { intros b e Hb He. apply (Permutation_in _ (pt_perm how sv c bs PT)). apply in_concat. eauto. }
    split; apply Forall_forall; intros b Hb.
    - apply Forall_forall. intros e He. unfold clause_ok in OC. rewrite Forall_forall in OC. eauto.
    - intros e f He. apply BC. eauto.
  Qed.
  Lemma sv_primary sv c : clause_ok E c -> incl sv (flat_map lit_vars c) -> Forall (fun x => is_fresh x = false) sv.
  Proof.
    intros OC I. apply Forall_forall. intros x Hx. apply I, in_flat_map in Hx. destruct Hx as [e [He Hx]]. unfold clause_ok in OC. rewrite Forall_forall in OC.
    destruct (OC e He) as [_ [_ [_ [P1 P2]]]]. apply in_app_or in Hx. destruct Hx; auto.
  Qed.

  Lemma move_wf svs s s' : move E lookup svs s s' -> wf_state s -> wf_state s'.
  Proof.
    intros H [A [B [C N]]]. destruct H as [how fd sv flagged N1 c N2 st n r Hsv CS DC I RU|Nn d st n FO OD BD|N1 d N2 st n FO]; cbn [pset pstore pnext] in *.
    - destruct (clause_split_inv _ _ _ _ _ _ _ _ CS) as [bs [PT [MD _]]].
      assert (OC : clause_ok E c) by (rewrite Forall_forall in A; apply A; apply in_or_app; right; left; auto).
      assert (BC : below n c) by (rewrite Forall_forall in B; apply B; apply in_or_app; right; left; auto).
      destruct (blocks_wf _ _ _ _ n PT OC BC) as [OB BB].
      destruct (make_defs_wf lookup LK fd sv (sv_primary sv c OC I) bs st n [] _ _ _ _ MD) as [L [SO [A1 [A2 [A3 A4]]]]]; auto; [constructor|intros e f []|].
      apply Forall_app in A. destruct A as [AN1 AN2]. apply Forall_app in B. destruct B as [BN1 BN2].
      assert (UP : forall l, Forall (below n) l -> Forall (below (new_next r)) l) by (intros l Hl; eapply Forall_impl; [|exact Hl]; intros x Hx; exact (below_le n _ x L Hx)).
      unfold wf_state; cbn [pset pstore pnext]. split; [|split; [|split; [auto|lia]]].
      + apply Forall_app. split; auto. apply Forall_app. split; [exact (Forall_inv_tail AN2)|]. apply Forall_app. split; auto.
      + apply Forall_app. split; auto. apply Forall_app. split; [apply UP; exact (Forall_inv_tail BN2)|]. apply Forall_app. split; auto.
    - unfold wf_state; cbn [pset pstore pnext]. auto 10.
    - apply Forall_app in A. destruct A as [AN1 AN2]. apply Forall_app in B. destruct B as [BN1 BN2].
      unfold wf_state; cbn [pset pstore pnext]. split; [apply Forall_app; split; auto; exact (Forall_inv_tail AN2)|].
      split; auto. apply Forall_app; split; auto; exact (Forall_inv_tail BN2).
  Qed.

  (** every model can be changed on the new symbols so that it satisfies the current clauses *)
  Definition extends (n0 : sym) (N0 : list clause) (s : pstate) : Prop := forall D so F, model_ok S (dist E) (mk D so F) -> satisfied E (mk D so F) N0 ->
    (forall F', model_ok S (dist E) (mk D so F') -> satisfied E (mk D so F') (pset s) -> store_means D so F' (pstore s) -> agree D n0 F F' -> False) -> False.
  (** the current clauses imply the initial ones *)
  Definition implies (N0 : list clause) (s : pstate) : Prop := forall M, model_ok S (dist E) M -> satisfied E M (pset s) -> satisfied E M N0.

  Lemma move_next svs s s' : move E lookup svs s s' -> wf_state s -> pnext s <= pnext s'.
  Proof.
    intros H [A [B [C N]]]. destruct H as [how fd sv flagged N1 c N2 st n r Hsv CS DC I RU|Nn d st n FO OD BD|N1 d N2 st n FO]; cbn [pset pstore pnext] in *; auto.
    destruct (clause_split_inv _ _ _ _ _ _ _ _ CS) as [bs [PT [MD _]]].
    assert (OC : clause_ok E c) by (rewrite Forall_forall in A; apply A; apply in_or_app; right; left; auto).
    assert (BC : below n c) by (rewrite Forall_forall in B; apply B; apply in_or_app; right; left; auto).
    destruct (blocks_wf _ _ _ _ n PT OC BC) as [OB BB].
    destruct (make_defs_wf lookup LK fd sv (sv_primary sv c OC I) bs st n [] _ _ _ _ MD) as [L _]; auto; [constructor|intros e f []].
  Qed.
  Lemma move_extends (svs : list var -> Prop) n0 N0 s s' : (forall sv, svs sv -> tabulable sv) -> n0 <= pnext s -> wf_state s -> move E lookup svs s s' -> extends n0 N0 s -> extends n0 N0 s'.
  Proof.
    intros TB LE [A [B [C N]]] H X D so F G SN K. apply (X D so F G SN). intros F1 G1 S1 M1 AG1.
    destruct H as [how fd sv flagged N1 c N2 st n r Hsv CS DC I RU|Nn d st n FO OD BD|N1 d N2 st n FO]; cbn [pset pstore pnext] in *.
    - destruct (clause_split_inv _ _ _ _ _ _ _ _ CS) as [bs [PT [MD _]]].
      assert (OC : clause_ok E c) by (rewrite Forall_forall in A; apply A; apply in_or_app; right; left; auto).
      assert (BC : below n c) by (rewrite Forall_forall in B; apply B; apply in_or_app; right; left; auto).
      destruct (blocks_wf _ _ _ _ n PT OC BC) as [OB BB].
      apply (make_defs_means D so lookup LK fd sv (sv_primary sv c OC I) (TB sv Hsv) bs F1 st n [] _ _ _ _ MD); auto.
      intros F2 ps G2 A2 SM2 ME2 PD2 EJ D2 LN PN SO2. apply (K F2); auto; [|eapply agree_trans; [exact AG1|]; eapply agree_le; [exact LE|exact A2]].
      assert (OLD : forall d, In d (N1 ++ c :: N2) -> clause_true S (mk D so F2) d).
      { intros d Hd. rewrite Forall_forall in B. apply (agree_true D so n F1 F2 d A2 (B d Hd)). apply S1; auto. }
      intros d Hd. apply in_app_or in Hd. destruct Hd as [Hd|Hd]; [apply OLD; apply in_or_app; auto|].
      apply in_app_or in Hd. destruct Hd as [Hd|Hd]; [apply OLD; apply in_or_app; right; right; auto|].
      apply in_app_or in Hd. destruct Hd as [Hd|[<-|[]]]; [rewrite Forall_forall in D2; auto|].
      rewrite EJ, app_nil_r. apply (joint_true D so how F2 sv c bs ps); auto. apply OLD. apply in_or_app; right; left; auto.
    - apply (K F1); auto. intros c [<-|Hc]; [|apply S1; auto]. apply FO; auto.
    - apply (K F1); auto. intros c Hc. apply S1. apply in_app_or in Hc. apply in_or_app. destruct Hc; auto. right; right; auto.
  Qed.

  Lemma make_defs_back (M : structure) fd sv : model_ok S (dist E) M -> Forall (fun x => is_fresh x = false) sv -> forall bs st n join ds j st' n', make_defs E lookup fd sv bs st n join = (ds, j, st', n') ->
    store_ok n st -> Forall (clause_ok E) bs -> Forall (below n) bs -> declared E sv n n' -> 2 < n ->
    (forall d p, In (d, p) st -> In (def_lit E p false []) j -> clause_true S M (def_lit E p true [] :: d)) -> satisfied E M ds ->
    incl join j /\
    (forall v, respects S M v -> Exists (holds M v) j -> Exists (holds M v) join \/ Exists (holds M v) (concat bs)).
  Proof.
    intros G FR. induction bs as [|l bs IH]; intros st n join ds j st' n' H SO OB BB DC N ST SD; cbn [make_defs] in H.
    - injection H as <- <- <- <-. split; [apply incl_refl|auto].
    - destruct (one_def E lookup fd sv st n l) as [[[p d] st1] n1] eqn:O. destruct (make_defs E lookup fd sv bs st1 n1 (def_lit E p false sv :: join)) as [[[ds2 j2] st2] n2] eqn:MD.
      injection H as <- <- <- <-. apply (one_def_round lookup LK) in O.
      assert (L1 : n <= n1) by (inversion O; lia).
      assert (L2 : n1 <= n2).
      { clear - MD LK. revert st1 n1 ds2 j2 st2 n2 MD. generalize (def_lit E p false sv :: join). induction bs as [|l2 bs IH]; intros jj st1 n1 ds2 j2 st2 n2 MD; cbn [make_defs] in MD.
        - injection MD as _ _ _ <-. auto.
        - destruct (one_def E lookup fd sv st1 n1 l2) as [[[p3 d3] st3] n3] eqn:O3. destruct (make_defs E lookup fd sv bs st3 n3 (def_lit E p3 false sv :: jj)) as [[[ds4 j4] st4] n4] eqn:MD4.
          injection MD as _ _ _ <-. apply IH in MD4. apply (one_def_round lookup LK) in O3. inversion O3; lia. }
      assert (DC1 : declared E sv n n1) by (intros f Hf; apply DC; lia).
      assert (DC2 : declared E sv n1 n2) by (intros f Hf; apply DC; lia).
      destruct (round_wf _ _ _ _ _ _ _ _ O SO (Forall_inv OB) (Forall_inv BB) DC1 N FR) as [_ [P1 [PD [SO1 Hd]]]].
      assert (BB1 : Forall (below n1) bs) by (eapply Forall_impl; [|exact (Forall_inv_tail BB)]; intros c Hc; exact (below_le n n1 c L1 Hc)).
      assert (SD2 : satisfied E M ds2) by (intros x Hx; apply SD; destruct d; [right|]; auto).
      assert (INC : incl (def_lit E p false sv :: join) j2).
      { clear - MD LK. revert st1 n1 ds2 j2 st2 n2 MD. generalize (def_lit E p false sv :: join). induction bs as [|l2 bs IH]; intros jj st1 n1 ds2 j2 st2 n2 MD; cbn [make_defs] in MD.
        - injection MD as _ <- _ _. apply incl_refl.
        - destruct (one_def E lookup fd sv st1 n1 l2) as [[[p3 d3] st3] n3] eqn:O3. destruct (make_defs E lookup fd sv bs st3 n3 (def_lit E p3 false sv :: jj)) as [[[ds4 j4] st4] n4] eqn:MD4.
          injection MD as _ <- _ _. apply IH in MD4. intros x Hx. apply MD4. right. auto. }
      (* the definition of this block: its predicate or the block *)
      assert (DEF : forall v, respects S M v -> holds M v (def_lit E p true sv) \/ Exists (holds M v) l).
      { destruct O as [st'' _|d0 p Esv I0 [fuel [H1 H2]]]; intros v Hv.
        - specialize (SD _ (or_introl eq_refl) v Hv). apply (proj1 (clause_alloc_holds M v _)) in SD. inversion SD; subst; auto.
        - subst sv. specialize (ST d0 p I0 (INC _ (or_introl eq_refl))). destruct (SO d0 p I0) as [_ [OD [_ _]]].
          destruct (lit_holds_dec S (dist E) M v (pos (def_lit E p true [])) (lt (def_lit E p true [])) (rt (def_lit E p true [])) G) as [Y|NY]; [left; exact Y|right].
          assert (T0 : clause_true S M d0).
          { intros w Hw. specialize (ST w Hw). inversion ST as [e l' Hl|e l' Hl]; subst; auto. exfalso. apply NY. fold (holds M v (def_lit E p true [])). 
            apply (def_lit_holds' M w [] p true G Hw PD) in Hl. apply (def_lit_holds' M v [] p true G Hv PD). exact Hl. }
          apply (subsumes_iff M fuel d0 l G OD (Forall_inv OB) H1 H2); auto. }
      assert (ST1 : forall d p, In (d, p) st1 -> In (def_lit E p false []) j2 -> clause_true S M (def_lit E p true [] :: d)).
      { intros d1 p1 I1 J1. destruct O as [st'' [->|[-> ->]]|d0 p Esv I0 _]; auto. destruct I1 as [[= <- <-]|I1]; auto.
        intros v Hv. destruct (DEF v Hv); [left; auto|right; apply sorted_exists; auto]. }
      destruct (IH _ _ _ _ _ _ _ MD SO1 (Forall_inv_tail OB) BB1 DC2 ltac:(lia) ST1 SD2) as [X1 X2]. split; [intros x Hx; apply INC; right; auto|].
      intros v Hv HJ. cbn [concat]. rewrite Exists_app. destruct (X2 v Hv HJ) as [Y|Y]; auto. inversion Y as [e l' Hl|e l' Hl]; subst; auto. right. left.
      destruct (DEF v Hv) as [Z|Z]; auto. exfalso.
      apply (def_lit_holds' M v sv p false G Hv PD) in Hl. apply (def_lit_holds' M v sv p true G Hv PD) in Z. contradiction.
  Qed.

  Lemma move_implies svs N0 s s' : wf_state s -> move E lookup svs s s' -> implies N0 s -> implies N0 s'.
  Proof.
    intros [A [B [C N]]] H X M G SN. apply (X M G).
    destruct H as [how fd sv flagged N1 c N2 st n r Hsv CS DC I RU|Nn d st n FO OD BD|N1 d N2 st n FO]; cbn [pset pstore pnext] in *.
    - destruct (clause_split_inv _ _ _ _ _ _ _ _ CS) as [bs [PT [MD _]]].
      assert (OC : clause_ok E c) by (rewrite Forall_forall in A; apply A; apply in_or_app; right; left; auto).
      assert (BC : below n c) by (rewrite Forall_forall in B; apply B; apply in_or_app; right; left; auto).
      destruct (blocks_wf _ _ _ _ n PT OC BC) as [OB BB].
      assert (S12 : satisfied E M (N1 ++ N2)) by (intros d Hd; apply SN; rewrite app_assoc; apply in_or_app; left; auto).
      assert (SDS : satisfied E M (new_defs r)) by (intros d Hd; apply SN; rewrite app_assoc; apply in_or_app; right; apply in_or_app; left; auto).
      assert (SR : clause_true S M (rest r)) by (apply SN; rewrite !app_assoc; apply in_or_app; right; left; auto).
      destruct (make_defs_back M fd sv G (sv_primary sv c OC I) bs st n [] _ _ _ _ MD) as [_ Y]; auto.
      + intros d p Hd Hp. apply (RU d p Hd Hp); auto.
      + intros d Hd. apply in_app_or in Hd. destruct Hd as [Hd|[<-|Hd]]; [apply S12; apply in_or_app; auto| |apply S12; apply in_or_app; auto].
        intros v Hv. destruct (Y v Hv (SR v Hv)) as [Z|Z]; [inversion Z|]. eapply perm_exists; [apply (pt_perm how sv c bs PT)|exact Z].
    - intros c Hc. apply SN. right; auto.
    - assert (T : clause_true S M d) by (apply FO; auto). intros c Hc. apply in_app_or in Hc. destruct Hc as [Hc|[<-|Hc]]; auto; apply SN; apply in_or_app; auto.
  Qed.

  Lemma moves_inv (svs : list var -> Prop) N0 n s : (forall sv, svs sv -> tabulable sv) -> Forall (clause_ok E) N0 -> Forall (below n) N0 -> 2 < n ->
    moves E lookup svs {| pset := N0; pstore := []; pnext := n |} s -> wf_state s /\ extends n N0 s /\ implies N0 s /\ n <= pnext s.
  Proof.
    intros TB OK BL N H. remember {| pset := N0; pstore := []; pnext := n |} as s0 eqn:E0. induction H as [s|s1 s2 s3 _ IH Hm].
    - subst s. split; [|split; [|split]].
      + split; auto. split; auto. split; [intros d p []|auto].
      + intros D so F G SN K. apply (K F); auto; [intros d p []|]. intros f ds _. auto.
      + intros M G SN. exact SN.
      + auto.
    - destruct (IH E0) as [A [B [C L]]]. split; [eapply move_wf; eauto|]. split; [eapply move_extends; eauto|]. split; [eapply move_implies; eauto|]. pose proof (move_next _ _ _ Hm A). lia.
  Qed.
  Theorem moves_unsat (svs : list var -> Prop) N0 n s : (forall sv, svs sv -> tabulable sv) -> Forall (clause_ok E) N0 -> Forall (below n) N0 -> 2 < n ->
    moves E lookup svs {| pset := N0; pstore := []; pnext := n |} s -> (unsat E (pset s) <-> unsat E N0).
  Proof.
    intros TB OK BL N H. destruct (moves_inv svs N0 n s TB OK BL N H) as [_ [B [C _]]]. split.
    - intros U M G SN. rewrite (mk_eta M) in *. apply (B _ _ _ G SN). intros F' G' S' _ _. apply (U _ G' S').
    - intros U M G SN. apply (U M G). apply C; auto.
  Qed.
  (** a clause without new symbols follows from the current clauses exactly if it follows from the initial ones *)
  Theorem moves_conservative (svs : list var -> Prop) N0 n s c : (forall sv, svs sv -> tabulable sv) -> Forall (clause_ok E) N0 -> Forall (below n) N0 -> 2 < n ->
    moves E lookup svs {| pset := N0; pstore := []; pnext := n |} s -> below n c -> (follows E (pset s) c <-> follows E N0 c).
  Proof.
    intros TB OK BL N H BC. destruct (moves_inv svs N0 n s TB OK BL N H) as [_ [B [C _]]]. split.
    - intros FO [D F so] G SN v Hv. change (model_ok S (dist E) (mk D so F)) in G.
      destruct (exists_dec D so F v c G) as [Y|NY]; [exact Y|]. exfalso. apply (B D so F G SN). intros F' G' S' _ AG.
      apply NY. apply (agree_exists D so n F F' v c AG BC). apply (FO _ G' S'). exact Hv.
    - intros FO M G SN. apply (FO M G). apply C; auto.
  Qed.
End Sem.
