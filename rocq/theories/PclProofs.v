(** Proofs about the extraction of proofs. *)

From Coq Require Import ZArith String Ascii List Bool Lia Arith Sorted.
From Verif Require Import Pcl PclSpec.
Import ListNotations.
Local Open Scope Z_scope.

Lemma eqid_iff : forall a b, eqid a b = true <-> a = b.
Proof.
  induction a as [|x a IH]; intros [|y b]; cbn; split; intros H;
    try discriminate; auto.
  - apply andb_true_iff in H. destruct H as [E F].
    apply Z.eqb_eq in E. apply IH in F. subst. reflexivity.
  - injection H as -> ->. rewrite Z.eqb_refl. apply IH. reflexivity.
Qed.

Lemma marked_iff : forall m s, marked m s = true <-> In (s_id s) m.
Proof.
  intros m s. unfold marked. rewrite existsb_exists. split.
  - intros (i & A & B). apply eqid_iff in B. subst i. exact A.
  - intros H. exists (s_id s). split; auto. apply eqid_iff. reflexivity.
Qed.

Lemma refs_quotes : forall e i, In i (refs e) <-> quotes e i.
Proof.
  fix IH 1. intros [|j|args] i.
  - cbn. split; [intros []|intros H; inversion H].
  - cbn. split.
    + intros [->|[]]. constructor.
    + intros H. inversion H. left. reflexivity.
  - cbn [refs]. split.
    + intros H.
      assert (X : exists e, In e args /\ quotes e i).
      { revert H. clear - IH. induction args as [|e args IHl]; cbn; intros H.
        - destruct H.
        - apply in_app_or in H. destruct H as [H|H].
          + exists e. split; [left; reflexivity|]. exact (proj1 (IH e i) H).
          + destruct (IHl H) as (e' & A & B). exists e'. split; auto. }
      destruct X as (e & A & B). econstructor; eauto.
    + intros H. inversion H as [|e a j A B]; subst. clear H.
      revert A B. clear - IH. induction args as [|x args IHl]; cbn; intros A B.
      * destruct A.
      * apply in_or_app. destruct A as [A|A].
        -- left. rewrite <- A in B. exact (proj2 (IH x i) B).
        -- right. apply IHl; auto.
Qed.

Lemma starts_iff : forall pre s, starts pre s = true <-> exists r, s = pre ++ r.
Proof.
  induction pre as [|x pre IH]; intros s; cbn.
  - split; eauto.
  - destruct s as [|y s].
    + split; [discriminate|intros (r & H); discriminate].
    + rewrite andb_true_iff, IH. split.
      * intros (A & r & ->). apply Ascii.eqb_eq in A. subst y. eauto.
      * intros (r & H). injection H as -> ->. rewrite Ascii.eqb_refl. eauto.
Qed.

Lemma eqstr_iff : forall a b, eqstr a b = true <-> a = b.
Proof.
  induction a as [|x a IH]; intros [|y b]; cbn; split; intros H;
    try discriminate; auto.
  - apply andb_true_iff in H. destruct H as [E F].
    apply Ascii.eqb_eq in E. apply IH in F. subst. reflexivity.
  - injection H as -> ->. rewrite Ascii.eqb_refl. apply IH. reflexivity.
Qed.

Lemma extract_iff : forall s, PCLStepExtract (s_extra s) = true <-> flagged s.
Proof.
  intros s. unfold PCLStepExtract, flagged.
  destruct (s_extra s) as [e|].
  2:{ split; [discriminate|]. intros (q & w & r & H & _). discriminate. }
  cbv zeta. rewrite !orb_true_iff, !starts_iff. split.
  - intros H.
    assert (X : exists q e', e = q ++ e' /\ In q [[]; text "'"; [""""%char]] /\
      (((exists r, e' = text "proof" ++ r) \/ (exists r, e' = text "final" ++ r)) \/
       (exists r, e' = text "extract" ++ r))).
    { unfold unquote in H. destruct e as [|c e]; [exists [], []; split; [reflexivity|split; [left; reflexivity|exact H]]|].
      destruct (Ascii.eqb c """") eqn:A; [|destruct (Ascii.eqb c "'") eqn:B].
      - apply Ascii.eqb_eq in A. subst c. exists [""""%char], e.
        split; [reflexivity|]. split; [cbn; auto|exact H].
      - apply Ascii.eqb_eq in B. subst c. exists (text "'"), e.
        split; [reflexivity|]. split; [cbn; auto|exact H].
      - exists [], (c :: e).
        split; [reflexivity|]. split; [cbn; auto|exact H]. }
    destruct X as (q & e' & -> & Q & [[(r & ->)|(r & ->)]|(r & ->)]);
      [exists q, "proof"%string, r|exists q, "final"%string, r
      |exists q, "extract"%string, r]; auto.
  - intros (q & w & r & E & Q & W). injection E as ->.
    assert (X : unquote (q ++ text w ++ r) = text w ++ r).
    { cbn [In] in Q. destruct Q as [<-|[<-|[<-|[]]]]; try reflexivity.
      destruct W as [->|[->| ->]]; reflexivity. }
    rewrite X. destruct W as [->|[->| ->]]; eauto.
Qed.

Lemma ends_iff : forall s, ends s = true <-> refutation s.
Proof.
  intros s. unfold ends, refutation.
  rewrite orb_true_iff, !andb_true_iff, !negb_true_iff.
  destruct (s_extra s) as [e|].
  - rewrite eqstr_iff. split.
    + intros [[A B]|[[A B] C]]; [right|left]; auto. subst e. auto.
    + intros [(A & B & C)|(A & B)]; [right|left]; auto.
      injection B as ->. auto.
  - split.
    + intros [[A B]|[[A B] C]]; [discriminate|left]; auto.
    + intros [(A & B & C)|(A & B)]; [right|discriminate]; auto.
Qed.

(* ------------------------------------------------------------------ *)
(** * The marking loop *)

Section Marking.
Variable ord : list (option step) -> list (option step).
Hypothesis LI : listing ord.
Variable collect : step -> out (list (option step)).
Variable l : list step.
Hypothesis ND : NoDup (map s_id l).
Variable root : step -> Prop.

Hypothesis COL : forall s, needed l root s ->
  exists p, collect s = Ok p /\
    (forall x, In x p <-> exists s', x = Some s' /\ In s' l /\
                                     quotes (s_just s) (s_id s')) /\
    (length p <= length (refs (s_just s)))%nat.

Lemma needed_in : forall s, needed l root s -> In s l.
Proof. intros s H. destruct H; auto. Qed.

Lemma same_id : forall (k : list step) s s', NoDup (map s_id k) ->
  In s k -> In s' k -> s_id s = s_id s' -> s = s'.
Proof.
  induction k as [|x k IH]; intros s s' N A B E; [destruct A|].
  cbn in N. apply NoDup_cons_iff in N. destruct N as [N1 N2].
  destruct A as [->|A], B as [->|B]; auto.
  - exfalso. apply N1. rewrite E. apply in_map. exact B.
  - exfalso. apply N1. rewrite <- E. apply in_map. exact A.
Qed.

(** The references of the steps not yet marked. *)
Definition todo (k : list step) (m : list id) : nat :=
  fold_right (fun s n => (if marked m s then 0 else length (refs (s_just s))) + n)%nat
    0%nat k.

Lemma todo_mark : forall k m s, NoDup (map s_id k) -> In s k ->
  marked m s = false ->
  (todo k (s_id s :: m) + length (refs (s_just s)) = todo k m)%nat.
Proof.
  assert (other : forall k m i, (forall x, In x k -> s_id x <> i) ->
    todo k (i :: m) = todo k m).
  { induction k as [|x k IH]; intros m i H; [reflexivity|].
    cbn [todo fold_right]. f_equal.
    - unfold marked at 1. cbn [existsb].
      destruct (eqid (s_id x) i) eqn:E; auto. apply eqid_iff in E.
      exfalso. apply (H x); auto. left. reflexivity.
    - apply IH. intros y F. apply H. right. exact F. }
  induction k as [|x k IH]; intros m s N A M; [destruct A|].
  cbn in N. apply NoDup_cons_iff in N. destruct N as [N1 N2].
  cbn [todo fold_right]. fold (todo k (s_id s :: m)) (todo k m).
  destruct A as [->|A].
  - assert (E : marked (s_id s :: m) s = true)
      by (apply marked_iff; left; reflexivity).
    rewrite E, M, other; [lia|]. intros y F E2. apply N1. rewrite <- E2.
    apply in_map. exact F.
  - rewrite <- (IH m s N2 A M).
    assert (E : marked (s_id s :: m) x = marked m x).
    { unfold marked at 1. cbn [existsb].
      destruct (eqid (s_id x) (s_id s)) eqn:E; auto. apply eqid_iff in E.
      exfalso. apply N1. rewrite E. apply in_map. exact A. }
    rewrite E. lia.
Qed.

Lemma mark_loop_ok : forall fuel stack m res,
  (forall x, In x stack -> exists s, x = Some s /\ needed l root s) ->
  (forall s, In s l -> In (s_id s) m -> needed l root s) ->
  (forall s s', In s l -> In (s_id s) m -> In s' l ->
     quotes (s_just s) (s_id s') -> In (s_id s') m \/ In (Some s') stack) ->
  (forall s, In s l -> In (s_id s) m -> refutation s -> res = true) ->
  (length stack + todo l m < fuel)%nat ->
  exists m' res', mark_loop ord collect fuel stack m res = Ok (m', res') /\
   (forall s, In s l -> In (s_id s) m' -> needed l root s) /\
   (forall s s', In s l -> In (s_id s) m' -> In s' l ->
     quotes (s_just s) (s_id s') -> In (s_id s') m') /\
   (forall s, In (Some s) stack -> In (s_id s) m') /\
   (forall i, In i m -> In i m') /\
   (forall s, In s l -> In (s_id s) m' -> refutation s -> res' = true) /\
   (res' = true -> res = true \/ exists s, needed l root s /\ refutation s).
Proof.
  induction fuel as [|n IH]; intros stack m res ST SO CL RE L; [lia|].
  cbn [mark_loop]. destruct stack as [|x st].
  { exists m, res. split; [reflexivity|].
    split; [exact SO|]. split.
    { intros s s' A B C D. destruct (CL s s' A B C D) as [H|[]]. exact H. }
    split; [intros s []|]. split; [auto|]. split; [exact RE|]. auto. }
  destruct (ST x) as (s & -> & NS); [left; reflexivity|].
  assert (INL : In s l) by (apply needed_in; exact NS).
  assert (RN : (res || ends s) = true ->
    res = true \/ exists s, needed l root s /\ refutation s).
  { intros H. apply orb_true_iff in H. destruct H as [H|H]; auto.
    apply ends_iff in H. right. exists s. auto. }
  destruct (marked m s) eqn:M.
  - apply marked_iff in M.
    destruct (IH st m (res || ends s))
      as (m' & res' & E & P1 & P2 & P3 & P4 & P5 & P6); auto.
    + intros y H. apply ST. right. exact H.
    + intros a b A B C D. destruct (CL a b A B C D) as [H|[H|H]]; auto.
      injection H as <-. auto.
    + intros a A B C. rewrite (RE a A B C). reflexivity.
    + cbn [length] in L. lia.
    + exists m', res'. split; [exact E|]. split; [exact P1|].
      split; [exact P2|]. split.
      { intros a [H|H]; auto. injection H as <-. auto. }
      split; [exact P4|]. split; [exact P5|].
      intros H. apply P6 in H. destruct H as [H|H]; auto.
  - destruct (COL s NS) as (p & E0 & HP & LP). rewrite E0. cbn [bind].
    destruct (LI p) as [LI1 LI2].
    destruct (IH (ord p ++ st) (s_id s :: m) (res || ends s))
      as (m' & res' & E & P1 & P2 & P3 & P4 & P5 & P6).
    + intros y H. apply in_app_or in H. destruct H as [H|H].
      * apply LI1 in H. apply HP in H. destruct H as (s' & -> & A & B).
        exists s'. split; auto. eapply n_dep; eauto.
      * apply ST. right. exact H.
    + intros a A [B|B]; auto.
      replace a with s; auto. apply (same_id l); auto.
    + intros a b A [B|B] C D.
      * assert (a = s) by (apply (same_id l); auto). subst a. right.
        apply in_or_app. left. apply LI1. apply HP. exists b. auto.
      * destruct (CL a b A B C D) as [H|[H|H]].
        -- left. right. exact H.
        -- injection H as <-. left. left. reflexivity.
        -- right. apply in_or_app. right. exact H.
    + intros a A [B|B] C.
      * assert (a = s) by (apply (same_id l); auto). subst a.
        apply ends_iff in C. rewrite C. apply orb_true_r.
      * rewrite (RE a A B C). reflexivity.
    + pose proof (todo_mark l m s ND INL M) as T. rewrite app_length.
      cbn [length] in L. lia.
    + exists m', res'. split; [exact E|]. split; [exact P1|].
      split; [exact P2|]. split.
      { intros a [H|H].
        - injection H as <-. apply P4. left. reflexivity.
        - apply P3. apply in_or_app. right. exact H. }
      split; [intros i H; apply P4; right; exact H|].
      split; [exact P5|].
      intros H. apply P6 in H. destruct H as [H|H]; auto.
Qed.

(** From the roots. *)
Lemma mark_ok : forall fuel stack,
  (forall x, In x stack <-> exists s, x = Some s /\ In s l /\ root s) ->
  (length stack + todo l [] < fuel)%nat ->
  exists m res, mark_loop ord collect fuel stack [] false = Ok (m, res) /\
   (forall s, In s l -> (marked m s = true <-> needed l root s)) /\
   (res = true <-> exists s, needed l root s /\ refutation s).
Proof.
  intros fuel stack ST L.
  destruct (mark_loop_ok fuel stack [] false)
    as (m & res & E & P1 & P2 & P3 & P4 & P5 & P6).
  - intros x H. apply ST in H. destruct H as (s & -> & A & B).
    exists s. split; auto. apply n_root; auto.
  - intros s _ [].
  - intros s s' _ [].
  - intros s _ [].
  - exact L.
  - assert (NM : forall s, needed l root s -> In (s_id s) m).
    { induction 1 as [s A B|s s' A IHA B C].
      - apply P3. apply ST. exists s. auto.
      - apply (P2 s s'); auto. apply needed_in. exact A. }
    exists m, res. split; [exact E|]. split.
    + intros s A. rewrite marked_iff. split; auto.
    + split.
      * intros H. apply P6 in H. destruct H as [H|H]; [discriminate|exact H].
      * intros (s & A & B). apply (P5 s); auto. apply needed_in. exact A.
Qed.
End Marking.

Lemma todo_bound : forall l,
  (todo l [] <= fold_right (fun s n => length (refs (s_just s)) + n) 0 l)%nat.
Proof.
  induction l as [|s l IH]; cbn [todo fold_right]; [lia|].
  cbn [marked existsb]. fold (todo l []). lia.
Qed.

(* ------------------------------------------------------------------ *)
(** * Identifiers *)

Lemma to_int_id : forall z, - 2 ^ 31 <= z < 2 ^ 31 -> to_int z = z.
Proof. intros z H. unfold to_int. rewrite Z.mod_small; lia. Qed.

Lemma id_diff_range : forall a b, small_id a -> small_id b ->
  - 2 ^ 31 <= id_diff a b < 2 ^ 31.
Proof.
  induction a as [|x a IH]; intros b A B; destruct b as [|y b]; cbn [id_diff];
    try lia.
  - apply Forall_inv in B. lia.
  - apply Forall_inv in A. lia.
  - apply Forall_cons_iff in A. apply Forall_cons_iff in B.
    destruct A as [A1 A2], B as [B1 B2].
    destruct (x - y =? 0); [apply IH; auto|lia].
Qed.

Lemma id_diff_zero : forall a b, small_id a -> small_id b ->
  (id_diff a b = 0 <-> a = b).
Proof.
  induction a as [|x a IH]; intros b A B; destruct b as [|y b]; cbn [id_diff].
  - tauto.
  - apply Forall_inv in B. split; [lia|discriminate].
  - apply Forall_inv in A. split; [lia|discriminate].
  - apply Forall_cons_iff in A. apply Forall_cons_iff in B.
    destruct A as [A1 A2], B as [B1 B2].
    destruct (x - y =? 0) eqn:E.
    + apply Z.eqb_eq in E. rewrite IH; auto. split; [|congruence].
      intros ->. f_equal. lia.
    + apply Z.eqb_neq in E. split; [lia|]. intros H. injection H as H _. lia.
Qed.

Lemma id_diff_neg : forall a b, small_id a -> small_id b ->
  (id_diff a b < 0 <-> lex_lt a b).
Proof.
  induction a as [|x a IH]; intros b A B; destruct b as [|y b]; cbn [id_diff].
  - split; [lia|intros H; inversion H].
  - apply Forall_inv in B. split; [constructor|lia].
  - apply Forall_inv in A. split; [lia|intros H; inversion H].
  - apply Forall_cons_iff in A. apply Forall_cons_iff in B.
    destruct A as [A1 A2], B as [B1 B2].
    destruct (x - y =? 0) eqn:E.
    + apply Z.eqb_eq in E. assert (x = y) by lia. subst y.
      rewrite IH; auto. split; [apply lt_tail|].
      intros H. inversion H; subst; auto. lia.
    + apply Z.eqb_neq in E. split.
      * intros H. apply lt_head. lia.
      * intros H. inversion H; subst; lia.
Qed.

Lemma id_diff_pos : forall a b, small_id a -> small_id b ->
  0 < id_diff a b -> lex_lt b a.
Proof.
  induction a as [|x a IH]; intros b A B; destruct b as [|y b]; cbn [id_diff];
    intros H; try lia.
  - apply Forall_inv in B. lia.
  - constructor.
  - apply Forall_cons_iff in A. apply Forall_cons_iff in B.
    destruct A as [A1 A2], B as [B1 B2].
    destruct (x - y =? 0) eqn:E.
    + apply Z.eqb_eq in E. assert (x = y) by lia. subst y. apply lt_tail; auto.
    + apply lt_head. lia.
Qed.

Lemma lex_trans : forall a b c, lex_lt a b -> lex_lt b c -> lex_lt a c.
Proof.
  intros a b c H. revert c. induction H; intros c K; inversion K; subst;
    constructor; auto; lia.
Qed.

Lemma lex_irrefl : forall a, ~ lex_lt a a.
Proof. induction a as [|x a IH]; intros H; inversion H; subst; auto. lia. Qed.
