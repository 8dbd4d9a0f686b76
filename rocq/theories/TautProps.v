(** * C17: tautology deletion only removes valid clauses. *)
From Verif Require Import Terms Unify KBO Semantics Clauses ClausesProofs ExEnv Subsume Taut TautProofs.

(** [follows E [] c]: c is true in every interpretation. *)
Theorem C17_tautology_test_sound : forall E eno max_neg fuel c,
  env_ok E -> clause_ok E c -> injective_on eno c ->
  clause_is_tautology eno max_neg E fuel c = TAns true -> follows E [] c.
Proof. intros E eno mx n c. apply (tautology_sound eno E mx n c). Qed.

Theorem C17_trivial_test_sound : forall E eno c,
  injective_on eno c -> exists b, clause_is_trivial eno E c = Some b /\ (b = true -> follows E [] c).
Proof. intros E eno c H. apply (trivial_ok eno E c H). Qed.

(** Up to EQN_LIST_LONG_LIMIT literals the syntactic test is exact: *)
Theorem C17_trivial_test_exact_for_short_clauses : forall E eno (gt : term -> term -> Prop) c,
  orient_ok gt c -> length c <= 15 ->
  (clause_is_trivial eno E c = Some true <-> (exists e, In e c /\ eqn_is_true E e = true) \/ complementary_pair c).
Proof.
  intros E eno gt c HO HL. unfold clause_is_trivial, find_true.
  destruct (existsb (eqn_is_true E) c) eqn:FT.
  - split; auto. intros _. left. apply existsb_exists in FT. exact FT.
  - assert (NT : ~ exists e, In e c /\ eqn_is_true E e = true).
    { intros X. apply existsb_exists in X. congruence. }
    replace (Nat.ltb long_limit (length c)) with false by (symmetry; apply Nat.ltb_ge; exact HL).
    destruct (negb (Nat.eqb (pos_no c) 0) && negb (Nat.eqb (neg_no c) 0)) eqn:Q.
    + split.
      * intros H. injection H as H. right. apply list_trivial_sound; auto.
      * intros [H|H]; [tauto|]. f_equal. apply (list_trivial_complete gt); auto.
    + split; [discriminate|]. intros [H|[e1 [e2 [I1 [I2 [P1 [P2 _]]]]]]]; [tauto|]. exfalso.
      apply andb_false_iff in Q. rewrite !negb_false_iff, !Nat.eqb_eq in Q. unfold pos_no, neg_no in Q.
      assert (A : In e1 (filter pos c)) by (apply filter_In; auto).
      assert (B : In e2 (filter (fun e => negb (pos e)) c)) by (apply filter_In; rewrite P2; auto).
      destruct Q as [Q|Q]; [destruct (filter pos c)|destruct (filter (fun e => negb (pos e)) c)]; simpl in *; tauto || discriminate.
Qed.

(** for longer clauses it can miss an atom and its negation, because the binary search drops the
    element before the middle when it goes to the lower half. *)
Fixpoint tower (n : nat) : term := match n with 0 => a0 | S m => f0 (tower m) end.
Theorem C17_trivial_test_incomplete_for_long_clauses_refuted : exists E eno c,
  clause_ok E c /\ injective_on eno c /\ complementary_pair c /\ clause_is_trivial eno E c = Some false.
Proof.
  exists E0, (fun t => Z.of_nat (size t)), (at0 (p0 a0) :: map (fun k => nat0 (p0 (tower k))) (seq 0 16)).
  split; [apply clause_okb; vm_compute; reflexivity|]. split; [|split].
  - assert (T : forall k, size (tower k) = S k) by (induction k; cbn [tower size fold_right]; auto; cbn; lia).
    assert (SH : forall a, In a (at0 (p0 a0) :: map (fun k => nat0 (p0 (tower k))) (seq 0 16)) -> rt a = ttrue /\ exists k, lt a = p0 (tower k)).
    { intros a [<-|I]; [split; [reflexivity|exists 0; reflexivity]|]. apply in_map_iff in I. destruct I as [k [<- _]]. split; [reflexivity|exists k; reflexivity]. }
    assert (SZ : forall k, size (p0 (tower k)) = S (S k)) by (intros k; cbn; rewrite T; lia).
    intros a b t u Ia Ib Ht Hu EQ. destruct (SH a Ia) as [Ra [ka La]], (SH b Ib) as [Rb [kb Lb]]. apply Nat2Z.inj in EQ.
    destruct Ht as [-> | ->], Hu as [-> | ->]; rewrite ?Ra, ?Rb, ?La, ?Lb in EQ |- *; rewrite ?SZ in EQ; auto.
    + injection EQ as ->. reflexivity.
    + cbn in EQ. lia.
    + cbn in EQ. lia.
  - exists (at0 (p0 a0)), (nat0 (p0 a0)). simpl. repeat split; auto. left. split; reflexivity.
  - vm_compute. reflexivity.
Qed.

(** The completion-based test does not crash, and answers if there is at most one negative literal or
    more than max_neg of them.  (Otherwise, whether the completion ends is not claimed.) *)
Theorem C17_no_crash : forall E eno max_neg fuel c, no_false c -> injective_on eno c ->
  clause_is_tautology eno max_neg E fuel c <> TUndef /\
  (neg_no c <= 1 \/ max_neg < neg_no c -> exists b, clause_is_tautology eno max_neg E fuel c = TAns b).
Proof. intros E eno mx n c. apply (tautology_answers eno E mx n c). Qed.

(** With one negative literal it finds every atom that occurs with both signs; *)
Theorem C17_finds_complementary_pair : forall E eno max_neg fuel c,
  no_false c -> neg_no c = 1 -> 1 <= max_neg -> complementary_pair c ->
  clause_is_tautology eno max_neg E fuel c = TAns true.
Proof. intros E eno mx n c. apply (one_negative eno E mx n c). Qed.

(** with two it may not: in c = f(f(b)) | b != f(b) | c != f(f(b)) the second rule rewrites the side
    f(f(b)) of the first one, which keeps its orientation mark and now leads from the smaller to the
    larger side; the later one-pass normalisation does not apply it any more. *)
Theorem C17_misses_complementary_pair_refuted : exists E eno c,
  clause_ok E c /\ no_false c /\ injective_on eno c /\ complementary_pair c /\ clause_is_trivial eno E c = Some true
  /\ forall max_neg fuel, 2 <= max_neg -> 10 <= fuel -> clause_is_tautology eno max_neg E fuel c = TAns false.
Proof.
  set (eno := fun t => Z.of_nat (match t with Fun f [] => f | _ => 10 + size t end)).
  exists E0, eno, [eq0 c0 (f0 (f0 b0)); ne0 b0 (f0 b0); ne0 c0 (f0 (f0 b0))].
  split; [apply clause_okb; vm_compute; reflexivity|]. split; [|split; [|split; [|split]]].
  - intros e [<-|[<-|[<-|[]]]]; split; discriminate.
  - intros a b t u [<-|[<-|[<-|[]]]] [<-|[<-|[<-|[]]]] [->| ->] [->| ->]; vm_compute; intros H; try discriminate H; reflexivity.
  - exists (eq0 c0 (f0 (f0 b0))), (ne0 c0 (f0 (f0 b0))). simpl. repeat split; auto. left. split; reflexivity.
  - vm_compute. reflexivity.
  - intros mx n HM H. do 10 (destruct n as [|n]; [lia|]). unfold clause_is_tautology.
    replace (neg_no [eq0 c0 (f0 (f0 b0)); ne0 b0 (f0 b0); ne0 c0 (f0 (f0 b0))]) with 2 by reflexivity.
    replace (Nat.ltb mx 2) with false by (symmetry; apply Nat.ltb_ge; auto). vm_compute. reflexivity.
Qed.

Example C17_example :
  let c := [eq0 (g0 a0 b0) (g0 b0 a0); ne0 a0 c0; ne0 b0 c0] in
  let eno := fun t => Z.of_nat (match t with Fun f [] => f | Fun _ [Fun f []; _] => 10 + f | _ => 0 end) in
  clause_ok E0 c /\ no_false c /\ injective_on eno c /\ clause_is_tautology eno 1000 E0 10 c = TAns true
  /\ clause_is_trivial eno E0 c = Some false
  /\ clause_is_tautology eno 1000 E0 10 [eq0 (g0 a0 b0) (g0 b0 a0); ne0 a0 c0] = TAns false.
Proof.
  cbv zeta. split; [apply clause_okb; vm_compute; reflexivity|]. split; [|split].
  - intros e [<-|[<-|[<-|[]]]]; split; discriminate.
  - intros a b t u [<-|[<-|[<-|[]]]] [<-|[<-|[<-|[]]]] [->| ->] [->| ->]; vm_compute; intros H; try discriminate H; reflexivity.
  - repeat split; vm_compute; reflexivity.
Qed.

Print Assumptions C17_tautology_test_sound.
Print Assumptions C17_trivial_test_sound.
Print Assumptions C17_trivial_test_exact_for_short_clauses.
Print Assumptions C17_trivial_test_incomplete_for_long_clauses_refuted.
Print Assumptions C17_no_crash.
Print Assumptions C17_finds_complementary_pair.
Print Assumptions C17_misses_complementary_pair_refuted.
