(** * C22: a fingerprint index returns all stored terms that can unify, or that are instances, and only stored terms.

    [index_step], [index_unifiable] and [index_matchable] model the fingerprint indices with the entries of the subterm index and the
    overlap index. The specification ([spec_step], [answers], [unifiable], [instance]) stands at the end of FPIndex.v: the index holds a set
    of entries, to which operations add and from which they take away. *)
From Verif Require Import Terms FPIndex FPIndexProofs.
Open Scope Z_scope.

(** For every fingerprint function, every history of insertions and deletions, and every query. *)
Theorem C22_unifiable (ispred : Z -> bool) (sigarity : Z -> nat) (fn : fpfun) (ops : list iop) (q : term) :
  fpfun_ok fn ->
  Forall (fun o => fo_term (arity sigarity) (iop_term o)) ops ->
  fo_term (arity sigarity) q ->
  let x := fold_left (index_step fn) ops fp_empty in
  let stored := fold_left spec_step ops (fun _ => False) in
  exists ps, index_unifiable ispred sigarity fn x q = Some ps /\
    (forall e, answers ps e -> stored e) /\
    (forall e, stored e -> unifiable q (fst e) -> answers ps e).
Proof. intros O F Q x s. apply (index_unif_ok ispred sigarity fn x s q); auto. apply rep_run; auto. apply rep_empty. Qed.

Theorem C22_matchable (ispred : Z -> bool) (sigarity : Z -> nat) (fn : fpfun) (ops : list iop) (q : term) :
  fpfun_ok fn ->
  Forall (fun o => fo_term (arity sigarity) (iop_term o)) ops ->
  fo_term (arity sigarity) q ->
  let x := fold_left (index_step fn) ops fp_empty in
  let stored := fold_left spec_step ops (fun _ => False) in
  (forall e, answers (index_matchable ispred sigarity fn x q) e -> stored e) /\
  (forall e, stored e -> instance q (fst e) -> answers (index_matchable ispred sigarity fn x q) e).
Proof. intros O F Q x s. apply (index_match_ok ispred sigarity fn x s q); auto. apply rep_run; auto. apply rep_empty. Qed.

(** The fingerprint function fp keeps its two representatives in static variables. Whatever the order of the calls, its keys are those of the
    model above with two constant representatives. *)
Theorem C22_fpfp (sigarity : Z -> nat) (pp : sym -> bool) (ts : list term) :
  Forall (fo_term (arity sigarity)) ts ->
  exists fr pr, fpfun_ok (FPfp pp fr pr) /\ fst (fpfp_run pp (0, 0) ts) = map (fp_key (FPfp pp fr pr)) ts.
Proof. intros F. destruct (fpfp_run_ok (fun _ => false) sigarity pp ts (0, 0) F (or_introl eq_refl) (or_introl eq_refl)) as [fr [pr [G1 [G2 [_ [_ E]]]]]]. exists fr, pr. split; [split; auto|exact E]. Qed.

(** ** Non-vacuity: f(a), f(x), g(b) and f(g(x)) as positions of clauses 1 and 2; query f(a), or f(y). *)
Definition ex_ar (f : Z) : nat := if (f =? 30) || (f =? 31) then 1%nat else 0%nat.
Definition ex_a := Fun 40%nat []. Definition ex_b := Fun 41%nat [].
Definition ex_f (t : term) := Fun 30%nat [t]. Definition ex_g (t : term) := Fun 31%nat [t].
Definition ex_ops : list iop :=
  [Insert (ex_f ex_a) (1%nat, 3); Insert (ex_f (Var 0%nat)) (1%nat, 5); Insert (ex_g ex_b) (2%nat, 0); Insert (ex_f (ex_g (Var 1%nat))) (2%nat, 7); Insert (ex_f ex_a) (2%nat, 9);
   Delete (ex_f ex_a) (1%nat, 3); DeleteClause (ex_g ex_b) 2].
Example C22_hyps : Forall (fun o => fo_term (arity ex_ar) (iop_term o)) ex_ops /\ fpfun_ok FP3DFlex /\ fpfun_ok (FPfp (fun _ => false) 30 25).
Proof.
  split; [|split].
  - unfold ex_ops, ex_f, ex_g, ex_a, ex_b, SIG_PHONY_APP_CODE, SIG_DB_LAMBDA_CODE. repeat (constructor; [cbn; repeat split; auto; try discriminate; try lia|]). constructor.
  - exists [[]; [0]; [0; 0]]%nat. reflexivity.
  - repeat split; discriminate.
Qed.
Definition ex_run (fn : fpfun) := fold_left (index_step fn) ex_ops fp_empty.
Example C22_ex1 : option_map (map (map fst)) (index_unifiable (fun _ => false) ex_ar FP7 (ex_run FP7) (ex_f ex_a)) = Some [[ex_f ex_a]; [ex_f (Var 0%nat)]].
Proof. vm_compute. reflexivity. Qed.
Example C22_ex2 : option_map (map (map fst)) (index_unifiable (fun _ => false) ex_ar FPdt (ex_run FPdt) (ex_f ex_a)) = Some [[ex_f ex_a]; [ex_f (Var 0%nat)]].
Proof. vm_compute. reflexivity. Qed.
Example C22_ex3 : map (map fst) (index_matchable (fun _ => false) ex_ar FPdt (ex_run FPdt) (ex_f (ex_g (Var 5%nat)))) = [[ex_f (ex_g (Var 1%nat))]].
Proof. vm_compute. reflexivity. Qed.
Example C22_ex4 : map (map fst) (index_matchable (fun _ => false) ex_ar FP2 (ex_run FP2) (ex_f (Var 5%nat))) = [[ex_f (Var 0%nat)]; [ex_f (ex_g (Var 1%nat))]; [ex_f ex_a]].
Proof. vm_compute. reflexivity. Qed.
Example C22_ex5 : fold_left spec_step ex_ops (fun _ => False) (ex_f ex_a, (2%nat, 9)) /\ ~ fold_left spec_step ex_ops (fun _ => False) (ex_f ex_a, (1%nat, 3)).
Proof. split; cbn; [|intuition]. repeat split; auto; intros H; try discriminate H. destruct H as [H _]. discriminate H. Qed.

Print Assumptions C22_unifiable.
Print Assumptions C22_matchable.
Print Assumptions C22_fpfp.
