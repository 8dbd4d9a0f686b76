(** C66: an extracted proof is complete, minimal and in order. *)

From Coq Require Import ZArith String Ascii List Bool Lia Arith Sorted
  Permutation.
From Verif Require Import Pcl PclSpec PclProofs PclMain PclFast PclBad.
Import ListNotations.
Local Open Scope Z_scope.

(** The output consists of the flagged steps and the steps they depend on,
    each once and in the order of the identifiers. *)
Theorem C66_extract : forall ord l, listing ord -> small l ->
  NoDup (map s_id l) -> resolved l flagged ->
  exists o res, epclextract ord l = Ok (o, res) /\
    StronglySorted lex_lt (map s_id o) /\
    (forall s, In s o <-> needed l flagged s) /\
    (res = true <-> exists s, In s l /\ refutation s).
Proof. exact extract_ok. Qed.

(** The output can be checked by itself: all references lead to steps of the
    output, and extracting from it again changes nothing. *)
Theorem C66_closed : forall ord l, listing ord -> small l ->
  NoDup (map s_id l) -> resolved l flagged ->
  exists o res, epclextract ord l = Ok (o, res) /\
    (forall s i, In s o -> quotes (s_just s) i ->
       exists s', In s' o /\ s_id s' = i) /\
    exists res', epclextract ord o = Ok (o, res').
Proof.
  intros ord l LI SM ND RE.
  destruct (extract_ok ord l LI SM ND RE) as (o & res & E & SO & O & _).
  exists o, res. split; [exact E|].
  assert (CL : forall s i, In s o -> quotes (s_just s) i ->
       exists s', In s' o /\ s_id s' = i).
  { intros s i A B. apply O in A. destruct (RE s i A B) as (s' & C & D).
    exists s'. split; auto. apply O. apply (n_dep l flagged s); auto.
    rewrite D. exact B. }
  split; [exact CL|].
  assert (SUB : forall s, In s o -> In s l).
  { intros s A. apply O in A. eapply needed_in; eauto. }
  assert (NDo : NoDup (map s_id o)).
  { unfold sorted in SO. revert SO. generalize (map s_id o). clear.
    induction 1 as [|a k S0 IH F]; constructor; auto.
    intros H. rewrite Forall_forall in F. apply F in H.
    eapply lex_irrefl; eauto. }
  assert (NO : forall s, needed o flagged s <-> In s o).
  { intros s. split; [apply needed_in|]. intros A. apply O in A.
    induction A as [s A B|s s' A IHA B C].
    - apply n_root; auto. apply O. apply n_root; auto.
    - apply (n_dep o flagged s); auto. apply O. apply (n_dep l flagged s); auto. }
  destruct (extract_ok ord o LI) as (o' & res' & E' & SO' & O' & _); auto.
  { intros s A. apply SM. auto. }
  { intros s i A B. apply CL with s; auto. apply NO. exact A. }
  exists res'. rewrite E'. do 2 f_equal.
  assert (SAME : forall s, In s o' <-> In s o)
    by (intros s; rewrite O', NO; tauto).
  revert SO SO' SAME. unfold sorted. clear. revert o'.
  induction o as [|x o IH]; intros [|y o'] S1 S2 SA; auto.
  { exfalso. apply (SA y). left. reflexivity. }
  { exfalso. apply (SA x). left. reflexivity. }
  cbn [map] in S1, S2. apply StronglySorted_inv in S1, S2.
  destruct S1 as [S1 F1], S2 as [S2 F2]. rewrite Forall_forall in F1, F2.
  assert (y = x).
  { destruct (proj1 (SA y) (or_introl eq_refl)) as [H|H]; auto.
    destruct (proj2 (SA x) (or_introl eq_refl)) as [G|G]; auto.
    exfalso. apply (lex_irrefl (s_id x)). eapply lex_trans.
    - apply F1. apply in_map. exact H.
    - apply F2. apply in_map. exact G. }
  subst y. f_equal. apply IH; auto. intros s. split; intros H.
  - destruct (proj1 (SA s) (or_intror H)) as [G|G]; auto. subst s.
    exfalso. apply (lex_irrefl (s_id x)). apply F2. apply in_map. exact H.
  - destruct (proj2 (SA s) (or_intror H)) as [G|G]; auto. subst s.
    exfalso. apply (lex_irrefl (s_id x)). apply F1. apply in_map. exact H.
Qed.

(** A protocol that uses an identifier twice is refused. *)
Theorem C66_duplicate : forall ord l, small l -> ~ NoDup (map s_id l) ->
  epclextract ord l = Error.
Proof.
  intros ord l SM ND. unfold epclextract. rewrite parse_dup; auto.
  - intros x H. rewrite app_nil_r in H. apply SM. exact H.
  - unfold sorted. constructor.
  - constructor.
  - rewrite app_nil_r. exact ND.
Qed.

(** The fast version does the same for the flagged steps at the end, and
    calls the result a refutation if and only if it contains one. *)
Theorem C66_fast : forall ord l, listing ord -> numbered l ->
  NoDup (map s_id l) -> resolved l (trailing l) ->
  exists o res, epclextract_fast ord l = Ok (o, res) /\
    StronglySorted lex_lt (map s_id o) /\
    (forall s, In s o <-> needed l (trailing l) s) /\
    (res = true <-> exists s, In s o /\ refutation s).
Proof. exact fast_ok. Qed.

(** If all flagged steps are at the end, both versions print the same. *)
Theorem C66_same : forall ord l, listing ord -> small l -> numbered l ->
  NoDup (map s_id l) -> resolved l flagged ->
  (forall s, In s l -> flagged s -> trailing l s) ->
  exists o res res', epclextract ord l = Ok (o, res) /\
    epclextract_fast ord l = Ok (o, res').
Proof.
  intros ord l LI SM NU ND RE TR.
  assert (EQ : forall s, needed l (trailing l) s <-> needed l flagged s).
  { intros s. split; intros H; induction H as [s A B|s s' A IHA B C].
    - apply n_root; auto. destruct B as (n & E & F).
      destruct (F n) as (t & T1 & T2 & T3); [lia| |].
      { exists s, n. split; auto. split; auto. lia. }
      assert (t = s) by (apply (same_id l); auto; congruence).
      subst t. exact T3.
    - apply (n_dep l flagged s); auto.
    - apply n_root; auto.
    - apply (n_dep l (trailing l) s); auto. }
  destruct (extract_ok ord l LI SM ND RE) as (o & res & E & SO & O & _).
  destruct (fast_ok ord l LI NU ND) as (o' & res' & E' & SO' & O' & _).
  { intros s i A. apply RE. apply EQ. exact A. }
  exists o, res, res'. split; [exact E|]. rewrite E'. do 2 f_equal.
  assert (SAME : forall s, In s o' <-> In s o)
    by (intros s; rewrite O', O; apply EQ).
  revert SO SO' SAME. unfold sorted. clear. revert o'.
  induction o as [|x o IH]; intros [|y o'] S1 S2 SA; auto.
  { exfalso. apply (SA y). left. reflexivity. }
  { exfalso. apply (SA x). left. reflexivity. }
  cbn [map] in S1, S2. apply StronglySorted_inv in S1, S2.
  destruct S1 as [S1 F1], S2 as [S2 F2]. rewrite Forall_forall in F1, F2.
  assert (y = x).
  { destruct (proj1 (SA y) (or_introl eq_refl)) as [H|H]; auto.
    destruct (proj2 (SA x) (or_introl eq_refl)) as [G|G]; auto.
    exfalso. apply (lex_irrefl (s_id x)). eapply lex_trans.
    - apply F1. apply in_map. exact H.
    - apply F2. apply in_map. exact G. }
  subst y. f_equal. apply IH; auto. intros s. split; intros H.
  - destruct (proj1 (SA s) (or_intror H)) as [G|G]; auto. subst s.
    exfalso. apply (lex_irrefl (s_id x)). apply F2. apply in_map. exact H.
  - destruct (proj2 (SA s) (or_intror H)) as [G|G]; auto. subst s.
    exfalso. apply (lex_irrefl (s_id x)). apply F1. apply in_map. exact H.
Qed.

Theorem C66_fast_duplicate : forall ord l, numbered l ->
  ~ NoDup (map s_id l) -> epclextract_fast ord l = Error.
Proof.
  intros ord l NU ND. unfold epclextract_fast. rewrite mparse_dup; auto;
    cbn [m_steps].
  - rewrite app_nil_r. exact NU.
  - constructor.
  - rewrite app_nil_r. exact ND.
Qed.

(** The fast version refuses a proof that refers to a step that is not
    there. *)
Theorem C66_fast_dangling : forall ord l, listing ord -> numbered l ->
  NoDup (map s_id l) ->
  (exists s i, needed l (trailing l) s /\ quotes (s_just s) i /\
     forall s', In s' l -> s_id s' <> i) ->
  epclextract_fast ord l = Error.
Proof. exact fast_bad. Qed.

(* ------------------------------------------------------------------ *)
(** * Where the program does something else *)

(** Without --fast-extract a null pointer is pushed and dereferenced in this
    case (pcl_protocol.c lines 464, 552). *)
Theorem C66_dangling_crashes : forall ord l, listing ord -> small l ->
  NoDup (map s_id l) ->
  (exists s i, needed l flagged s /\ quotes (s_just s) i /\
     forall s', In s' l -> s_id s' <> i) ->
  epclextract ord l = Ub.
Proof. exact extract_bad. Qed.

Definition stepn (n : Z) (e : expr) (x : string) (empty : bool) : step :=
  mkstep [n] e (match x with EmptyString => None | _ => Some (text x) end)
    false false empty.

Definition Q (n : Z) : expr := Quote [n].

Example listing_id : listing (fun p => p).
Proof. intros p. split; [tauto|auto]. Qed.

Theorem C66_dangling_refuted : exists l,
  NoDup (map s_id l) /\ small l /\ epclextract (fun p => p) l = Ub.
Proof.
  exists [stepn 7 (Op [Q 3]) "'proof'" true]. split; [|split].
  - cbn. constructor; [intros []|constructor].
  - intros s [<-|[]]. cbn. split; [constructor; [lia|constructor]|].
    intros i H. apply refs_quotes in H. cbn in H. destruct H as [<-|[]].
    constructor; [lia|constructor].
  - reflexivity.
Qed.

(** Identifiers that differ by a multiple of 2^32 are taken for the same. *)
Theorem C66_big_id_refuted : exists l,
  NoDup (map s_id l) /\ epclextract (fun p => p) l = Error.
Proof.
  exists [stepn 1 Initial "" false; stepn (1 + 2 ^ 32) (Op [Q 1]) "'proof'" true].
  split.
  - cbn. constructor; [intros [H|[]]; discriminate|].
    constructor; [intros []|constructor].
  - reflexivity.
Qed.

(** An empty clause that is not part of the output makes the output a
    CNFRefutation (pcl_protocol.c lines 533-544). *)
Theorem C66_status_refuted : exists l o,
  NoDup (map s_id l) /\ small l /\ resolved l flagged /\
  epclextract (fun p => p) l = Ok (o, true) /\
  forall s, In s o -> ~ refutation s.
Proof.
  exists [stepn 1 Initial "'final'" false; stepn 2 Initial "" true],
         [stepn 1 Initial "'final'" false].
  split; [|split; [|split; [|split]]].
  - cbn. constructor; [intros [H|[]]; discriminate|].
    constructor; [intros []|constructor].
  - intros s [<-|[<-|[]]]; (split; [constructor; [lia|constructor]|]);
      intros i H; apply refs_quotes in H; destruct H.
  - intros s i N H. exfalso. apply needed_in in N.
    destruct N as [<-|[<-|[]]]; apply refs_quotes in H; destruct H.
  - reflexivity.
  - intros s [<-|[]] H. apply ends_iff in H. discriminate.
Qed.

(** With --fast-extract, a flagged step before one that is not flagged is
    lost. *)
Theorem C66_fast_loses_refuted : exists l s,
  numbered l /\ NoDup (map s_id l) /\ In s l /\ flagged s /\ refutation s /\
  epclextract_fast (fun p => p) l = Ok ([], false).
Proof.
  exists [stepn 1 Initial "'proof'" true; stepn 2 Initial "" false],
         (stepn 1 Initial "'proof'" true).
  split; [|split; [|split; [|split; [|split]]]].
  - intros s [<-|[<-|[]]]; (split; [eexists; split; [|reflexivity]; lia|]);
      intros i H; apply refs_quotes in H; destruct H.
  - cbn. constructor; [intros [H|[]]; discriminate|].
    constructor; [intros []|constructor].
  - left. reflexivity.
  - apply extract_iff. reflexivity.
  - apply ends_iff. reflexivity.
  - reflexivity.
Qed.

(* ------------------------------------------------------------------ *)
(** * A protocol *)

Definition prot : list step :=
  [stepn 1 Initial "" false; stepn 2 Initial "" false; stepn 3 Initial "" false;
   stepn 5 (Op [Q 1; Op [Q 2; Initial]]) "" false;
   stepn 4 (Op [Q 3]) "" false;
   stepn 7 (Op [Q 5; Q 1]) "'proof'" true].

Example prot_out :
  epclextract (fun p => p) prot =
    Ok ([stepn 1 Initial "" false; stepn 2 Initial "" false;
         stepn 5 (Op [Q 1; Op [Q 2; Initial]]) "" false;
         stepn 7 (Op [Q 5; Q 1]) "'proof'" true], true) /\
  epclextract_fast (fun p => p) prot = epclextract (fun p => p) prot.
Proof. split; reflexivity. Qed.

(** It meets the conditions of the theorems. *)
Example prot_small : small prot /\ numbered prot /\ NoDup (map s_id prot).
Proof.
  split; [|split].
  - intros s H. cbn in H.
    destruct H as [<-|[<-|[<-|[<-|[<-|[<-|[]]]]]]];
      (split; [constructor; [lia|constructor]|]);
      intros i H; apply refs_quotes in H; cbn in H;
      repeat (destruct H as [<-|H]; [constructor; [lia|constructor]|]);
      destruct H.
  - intros s H. cbn in H.
    destruct H as [<-|[<-|[<-|[<-|[<-|[<-|[]]]]]]];
      (split; [eexists; split; [|reflexivity]; lia|]);
      intros i H; apply refs_quotes in H; cbn in H;
      repeat (destruct H as [<-|H]; [eexists; split; [|reflexivity]; lia|]);
      destruct H.
  - cbn. repeat (constructor; [cbn; intuition discriminate|]). constructor.
Qed.

Example prot_resolved : resolved prot flagged /\
  (forall s, In s prot -> flagged s -> trailing prot s).
Proof.
  split.
  - intros s i N H. apply needed_in in N. apply refs_quotes in H. cbn in N.
    destruct N as [<-|[<-|[<-|[<-|[<-|[<-|[]]]]]]]; cbn in H;
      repeat (destruct H as [<-|H];
              [first [exists (nth 0 prot (stepn 0 Initial "" false));
                        split; [cbn; tauto|reflexivity]
                     |exists (nth 1 prot (stepn 0 Initial "" false));
                        split; [cbn; tauto|reflexivity]
                     |exists (nth 2 prot (stepn 0 Initial "" false));
                        split; [cbn; tauto|reflexivity]
                     |exists (nth 3 prot (stepn 0 Initial "" false));
                        split; [cbn; tauto|reflexivity]]|]);
      destruct H.
  - intros s A F. apply extract_iff in F. cbn in A.
    destruct A as [<-|[<-|[<-|[<-|[<-|[<-|[]]]]]]]; try discriminate.
    exists 7. split; [reflexivity|]. intros m L (t & k & T1 & T2 & T3).
    assert (k <= 7).
    { cbn in T1.
      destruct T1 as [<-|[<-|[<-|[<-|[<-|[<-|[]]]]]]]; injection T2 as <-; lia. }
    assert (m = 7) by lia. subst m.
    exists (stepn 7 (Op [Q 5; Q 1]) "'proof'" true).
    split; [|split; [reflexivity|]].
    { cbn. do 5 right. left. reflexivity. }
    apply extract_iff. reflexivity.
Qed.

(** Compound identifiers are ordered element by element. *)
Example compound :
  epclextract (fun p => p)
    [mkstep [0; 12; 1] (Op [Quote [0; 3]]) (Some (text "'extract'")) false false false;
     mkstep [0; 3] Initial None false true false;
     mkstep [0; 12] Initial (Some (text "final")) false false false] =
  Ok ([mkstep [0; 3] Initial None false true false;
       mkstep [0; 12] Initial (Some (text "final")) false false false;
       mkstep [0; 12; 1] (Op [Quote [0; 3]]) (Some (text "'extract'")) false false false],
      false).
Proof. reflexivity. Qed.

Example twice : epclextract_fast (fun p => p)
  [stepn 1 Initial "" false; stepn 1 Initial "" false] = Error.
Proof. reflexivity. Qed.

Example nowhere : epclextract_fast (fun p => p)
  [stepn 7 (Op [Q 3]) "'proof'" true] = Error.
Proof. reflexivity. Qed.

Print Assumptions C66_extract.
Print Assumptions C66_closed.
Print Assumptions C66_duplicate.
Print Assumptions C66_fast.
Print Assumptions C66_same.
Print Assumptions C66_fast_duplicate.
Print Assumptions C66_fast_dangling.
Print Assumptions C66_dangling_crashes.
Print Assumptions C66_dangling_refuted.
Print Assumptions C66_big_id_refuted.
Print Assumptions C66_status_refuted.
Print Assumptions C66_fast_loses_refuted.
