(** Proofs about the command line. *)

From Coq Require Import ZArith String Ascii List Bool Lia Arith.
From Verif Require Import CmdLine CmdLineSpec.
Import ListNotations.
Local Open Scope Z_scope.

(* ------------------------------------------------------------------ *)
(** * Strings *)

Lemma eqstr_iff : forall a b, eqstr a b = true <-> a = b.
Proof.
  induction a as [|x a IH]; intros [|y b]; cbn; split; intros H;
    try discriminate; auto.
  - apply andb_true_iff in H. destruct H as [E F].
    apply Ascii.eqb_eq in E. apply IH in F. subst. reflexivity.
  - injection H as -> ->. rewrite Ascii.eqb_refl. apply IH. reflexivity.
Qed.

Lemma eqn_all : forall a b n, eqn n a b = true -> length a = n ->
  (n <= length b)%nat -> a = firstn n b.
Proof.
  induction a as [|x a IH]; intros b n E L B.
  - cbn in L. subst n. reflexivity.
  - destruct n as [|n]; [cbn in L; lia|]. destruct b as [|y b]; [cbn in B; lia|].
    cbn in E. apply andb_true_iff in E. destruct E as [E F].
    apply Ascii.eqb_eq in E. subst y. cbn. f_equal.
    apply IH; cbn in *; auto; lia.
Qed.

Lemma eqn_firstn : forall n b, eqn n (firstn n b) b = true.
Proof.
  induction n as [|n IH]; intros b; cbn; auto.
  destruct b as [|y b]; cbn; auto. rewrite Ascii.eqb_refl. apply IH.
Qed.

Lemma name_split : forall n,
  (~ In eqs n /\ name_len n = length n /\ after_eq n = None) \/
  (exists name v, n = name ++ eqs :: v /\ ~ In eqs name /\
     name_len n = length name /\ after_eq n = Some v).
Proof.
  induction n as [|c n IH]; cbn.
  - left. auto.
  - destruct (Ascii.eqb c eqs) eqn:E.
    + right. apply Ascii.eqb_eq in E. subst c. exists [], n. cbn. auto.
    + apply Ascii.eqb_neq in E. destruct IH as [(A & B & C)|(m & v & A & B & C & D)].
      * left. repeat split; auto. intros [F|F]; auto.
      * right. exists (c :: m), v. subst n. cbn. repeat split; auto.
        intros [F|F]; auto.
Qed.

Lemma name_len_app : forall name v, ~ In eqs name ->
  name_len (name ++ eqs :: v) = length name /\
  after_eq (name ++ eqs :: v) = Some v.
Proof.
  induction name as [|c m IH]; cbn; intros v H.
  - auto.
  - destruct (Ascii.eqb c eqs) eqn:E.
    + apply Ascii.eqb_eq in E. subst c. exfalso. apply H. left. reflexivity.
    + destruct (IH v) as [A B]; [intros F; apply H; right; exact F|].
      rewrite A. auto.
Qed.

Lemma name_len_all : forall name, ~ In eqs name ->
  name_len name = length name /\ after_eq name = None.
Proof.
  induction name as [|c m IH]; cbn; intros H; auto.
  destruct (Ascii.eqb c eqs) eqn:E.
  - apply Ascii.eqb_eq in E. subst c. exfalso. apply H. left. reflexivity.
  - destruct IH as [A B]; [intros F; apply H; right; exact F|].
    rewrite A. auto.
Qed.

Lemma at_in : forall s k c, nth_error s k = Some c -> at_ s k = Ok c.
Proof. intros s k c H. unfold at_. rewrite H. reflexivity. Qed.

Lemma at_end : forall s, at_ s (length s) = Ok nul.
Proof.
  intros s. unfold at_.
  destruct (nth_error s (length s)) eqn:E.
  - apply nth_error_None in E || (assert (nth_error s (length s) = None)
      by (apply nth_error_None; lia); congruence).
  - rewrite Nat.eqb_refl. reflexivity.
Qed.

(* ------------------------------------------------------------------ *)
(** * The table *)

Section WithTable.
Variables (os t : list opt).
Hypothesis T : table os t.

Lemma first_skip : forall A (P : A -> Prop) x l o,
  ~ P x -> first_with P l o -> first_with P (x :: l) o.
Proof.
  intros A P x l o N (l1 & l2 & E & F & G). exists (x :: l1), l2. subst l.
  repeat split; auto. intros y [->|H]; auto.
Qed.

Lemma first_unskip : forall A (P : A -> Prop) x l o,
  ~ P x -> first_with P (x :: l) o -> first_with P l o.
Proof.
  intros A P x l o N (l1 & l2 & E & F & G). destruct l1 as [|y l1].
  - cbn in E. injection E as -> ->. contradiction.
  - cbn in E. injection E as -> ->. exists l1, l2. repeat split; auto.
    intros z H. apply G. right. exact H.
Qed.

Lemma first_here : forall A (P : A -> Prop) x l o,
  P x -> first_with P (x :: l) o -> o = x.
Proof.
  intros A P x l o H (l1 & l2 & E & F & G). destruct l1 as [|y l1].
  - cbn in E. congruence.
  - cbn in E. injection E as <- _. exfalso. apply (G x); [left; auto|exact H].
Qed.

Lemma search_found : forall name n len,
  name = firstn len n -> (len <= length n)%nat ->
  (exists o, search_long n len t = Ok (Some o) /\ named os name o) \/
  (search_long n len t = Ok None /\ forall o, ~ named os name o).
Proof.
  intros name n len E L. destruct T as (F & e & rest & -> & Z0). clear T.
  assert (LN : length name = len) by (subst name; apply firstn_length_le; exact L).
  induction os as [|o l IH]; cbn [app search_long].
  - rewrite Z0. cbn. right. split; auto.
    intros o (l1 & l2 & H & _). destruct l1; discriminate.
  - apply Forall_cons_iff in F. destruct F as [[C N] F].
    destruct (o_code o =? 0) eqn:Q; [apply Z.eqb_eq in Q; contradiction|].
    destruct (o_long o) as [m|] eqn:M; [|contradiction].
    destruct (eqn len m n && Nat.eqb (length m) len) eqn:B.
    + left. exists o. split; auto. apply andb_true_iff in B.
      destruct B as [B1 B2]. apply Nat.eqb_eq in B2.
      apply eqn_all in B1; auto. exists [], l. cbn. subst name.
      repeat split; auto; congruence.
    + assert (NE : o_long o <> Some name).
      { intros H. rewrite M in H. injection H as ->. subst name.
        rewrite eqn_firstn, LN, Nat.eqb_refl in B. discriminate. }
      destruct (IH F) as [(x & A1 & A2)|[A1 A2]].
      * left. exists x. split; auto. apply first_skip; auto.
      * right. split; auto. intros x H. apply (A2 x).
        eapply first_unskip; eauto.
Qed.

Lemma search_named : forall name n len o,
  name = firstn len n -> (len <= length n)%nat -> named os name o ->
  search_long n len t = Ok (Some o).
Proof.
  intros name n len o E L H.
  destruct (search_found name n len E L) as [(x & A & B)|[_ B]].
  - rewrite A. do 2 f_equal. clear A E L.
    revert H B. unfold named. clear T. induction os as [|y l IH]; intros H B.
    + destruct H as (l1 & l2 & K & _). destruct l1; discriminate.
    + assert (D : o_long y = Some name \/ o_long y <> Some name).
      { destruct (o_long y) as [m|]; [|right; discriminate].
        destruct (list_eq_dec ascii_dec m name) as [Q|Q];
          [left; rewrite Q; reflexivity|right; intros K; injection K as K; contradiction]. }
      destruct D as [D|D].
      * apply first_here in H; auto. apply first_here in B; auto. congruence.
      * apply first_unskip in H; auto. apply first_unskip in B; auto.
  - exfalso. apply (B o). exact H.
Qed.

Lemma letter_found : forall c,
  (exists o, find_short_opt c t = Ok (Some o) /\ lettered os c o) \/
  (find_short_opt c t = Ok None /\ forall o, ~ lettered os c o).
Proof.
  intros c. destruct T as (F & e & rest & -> & Z0). clear T.
  induction os as [|o l IH]; cbn [app find_short_opt].
  - rewrite Z0. cbn. right. split; auto.
    intros o (l1 & l2 & H & _). destruct l1; discriminate.
  - apply Forall_cons_iff in F. destruct F as [[C N] F].
    destruct (o_code o =? 0) eqn:Q; [apply Z.eqb_eq in Q; contradiction|].
    destruct (Ascii.eqb c (o_short o)) eqn:B.
    + apply Ascii.eqb_eq in B. left. exists o. split; auto.
      exists [], l. cbn. repeat split; auto.
    + apply Ascii.eqb_neq in B.
      destruct (IH F) as [(x & A1 & A2)|[A1 A2]].
      * left. exists x. split; auto. apply first_skip; auto.
      * right. split; auto. intros x H. apply (A2 x).
        eapply first_unskip; eauto.
Qed.

Lemma letter_named : forall c o, lettered os c o ->
  find_short_opt c t = Ok (Some o).
Proof.
  intros c o H. destruct (letter_found c) as [(x & A & B)|[_ B]].
  - rewrite A. do 2 f_equal. clear A. revert H B. unfold lettered. clear T.
    induction os as [|y l IH]; intros H B.
    + destruct H as (l1 & l2 & K & _). destruct l1; discriminate.
    + destruct (ascii_dec (o_short y) c) as [D|D].
      * apply first_here in H; auto. apply first_here in B; auto. congruence.
      * apply first_unskip in H; auto. apply first_unskip in B; auto.
  - exfalso. apply (B o). exact H.
Qed.

(* ------------------------------------------------------------------ *)
(** * States *)

(** [ps] has been passed over, [l] is still to be read. *)
Definition rep (st : clstate) (ps l : list str) : Prop :=
  argi st = length ps /\
  argc st = Z.of_nat (length (ps ++ l)) /\
  (exists j, argv st = map Arg (ps ++ l) ++ Null :: j) /\
  Z.of_nat (length (argv st)) = argsize st /\
  argc st + 2 <= argsize st.

Lemma skipn_args : forall ps l j,
  skipn (length ps) (map Arg (ps ++ l) ++ Null :: j) = map Arg l ++ Null :: j.
Proof.
  intros ps l j. rewrite map_app, <- app_assoc.
  rewrite <- (map_length Arg ps). rewrite skipn_app, skipn_all, Nat.sub_diag.
  reflexivity.
Qed.

Lemma firstn_args : forall ps l j,
  firstn (length ps) (map Arg (ps ++ l) ++ Null :: j) = map Arg ps.
Proof.
  intros ps l j. rewrite map_app, <- app_assoc.
  rewrite <- (map_length Arg ps). rewrite firstn_app, firstn_all, Nat.sub_diag.
  cbn. apply app_nil_r.
Qed.

Lemma get_args : forall ps s l j,
  get (map Arg (ps ++ s :: l) ++ Null :: j) (length ps) = Ok (Some s).
Proof.
  intros ps s l j. unfold get. rewrite map_app, <- app_assoc.
  rewrite nth_error_app2; rewrite map_length; auto.
  rewrite Nat.sub_diag. reflexivity.
Qed.

Lemma get_null : forall ps j,
  get (map Arg (ps ++ []) ++ Null :: j) (length ps) = Ok None.
Proof.
  intros ps j. unfold get. rewrite app_nil_r.
  rewrite nth_error_app2; rewrite map_length; auto.
  rewrite Nat.sub_diag. reflexivity.
Qed.

Lemma shift_args : forall l s j,
  shift_from (Arg s) (map Arg l ++ Null :: j) =
  Ok (map Arg l ++ Null :: Null :: j).
Proof.
  induction l as [|a l IH]; intros s j; cbn; auto.
  rewrite IH. reflexivity.
Qed.

Lemma drop_rep : forall st ps s l, rep st ps (s :: l) ->
  exists st', drop st = Ok st' /\ rep st' ps l /\ sc_opt_c st' = sc_opt_c st.
Proof.
  intros [k i z n v] ps s l (A & B & (j & C) & D & E).
  cbn [sc_opt_c argi argsize argc argv] in *. subst i v.
  unfold drop, shift_array_left. cbn [sc_opt_c argi argsize argc argv].
  rewrite skipn_args. cbn [map app]. rewrite shift_args. cbn [bind].
  rewrite firstn_args. eexists. split; [reflexivity|].
  unfold rep. cbn [sc_opt_c argi argsize argc argv].
  rewrite app_length in *. cbn [length] in *.
  repeat split; auto; try lia.
  - exists (Null :: j). rewrite map_app, <- app_assoc. reflexivity.
  - rewrite <- D. rewrite !app_length, !map_length, !app_length. cbn [length].
    lia.
Qed.

Lemma rep_with_sc : forall st ps l k, rep st ps l -> rep (with_sc st k) ps l.
Proof. intros st ps l k H. exact H. Qed.

Lemma rep_shift : forall st ps a l, rep st ps (a :: l) ->
  rep (with_argi st (S (argi st))) (ps ++ [a]) l.
Proof.
  intros st ps a l (A & B & (j & C) & D & E). unfold rep, with_argi. cbn.
  rewrite <- app_assoc. cbn. rewrite app_length. cbn.
  repeat split; auto; try lia. exists j. exact C.
Qed.

(** The state at the head of an option. *)
Definition at_option (s : str) : Prop :=
  exists c cs, s = dash :: c :: cs /\ c <> nul.

Lemma getopt_at : forall st ps s l, rep st ps (s :: l) -> at_option s ->
  CLStateGetOpt st t =
  if eqstr s [dash; dash]
  then do st1 <- drop st;
       do j <- skip_all (skipn (argi st1) (argv st1)) (argi st1);
       Ok (with_argi st1 j, None)
  else if eqn 2 s [dash; dash] then process_long_option st t
  else process_short_option
         (if Nat.eqb (sc_opt_c st) 0 then with_sc st 1 else st) t.
Proof.
  intros [k i z n v] ps s l (A & B & (j & C) & D & E) (c & cs & S & N).
  cbn [sc_opt_c argi argsize argc argv] in *. subst i v.
  unfold CLStateGetOpt. cbn [sc_opt_c argi argsize argc argv].
  rewrite skipn_args. subst s. cbn [map app skip_plain].
  unfold at_ at 1. cbn [nth_error]. cbn [bind].
  rewrite Ascii.eqb_refl. unfold at_ at 1. cbn [nth_error]. cbn [bind].
  destruct (Ascii.eqb c nul) eqn:Q; [apply Ascii.eqb_eq in Q; contradiction|].
  unfold with_argi at 1 2. cbn [bind sc_opt_c argi argsize argc argv].
  rewrite get_args. reflexivity.
Qed.

Lemma getopt_plain : forall st ps a l, rep st ps (a :: l) -> plain a ->
  CLStateGetOpt st t = CLStateGetOpt (with_argi st (S (argi st))) t.
Proof.
  intros [k i z n v] ps a l (A & B & (j & C) & D & E) P.
  cbn [sc_opt_c argi argsize argc argv] in *. subst i v.
  unfold CLStateGetOpt, with_argi. cbn [sc_opt_c argi argsize argc argv].
  replace (skipn (S (length ps)) (map Arg (ps ++ a :: l) ++ Null :: j))
    with (map Arg l ++ Null :: j).
  2:{ replace (ps ++ a :: l) with ((ps ++ [a]) ++ l)
        by (rewrite <- app_assoc; reflexivity).
      replace (S (length ps)) with (length (ps ++ [a]))
        by (rewrite app_length; cbn; lia).
      symmetry. apply skipn_args. }
  rewrite skipn_args. cbn [map app skip_plain].
  replace (do c0 <- at_ a 0;
     if Ascii.eqb c0 dash
     then do c1 <- at_ a 1;
          if Ascii.eqb c1 nul then skip_plain (map Arg l ++ Null :: j) (S (length ps))
          else Ok (length ps)
     else skip_plain (map Arg l ++ Null :: j) (S (length ps)))
    with (skip_plain (map Arg l ++ Null :: j) (S (length ps))).
  2:{ destruct P as [->|P]; [reflexivity|].
      destruct a as [|c a]; [reflexivity|].
      unfold at_ at 1. cbn [nth_error bind].
      destruct (Ascii.eqb c dash) eqn:Q; [apply Ascii.eqb_eq in Q; contradiction|].
      reflexivity. }
  reflexivity.
Qed.

Lemma getopt_nil : forall st ps, rep st ps [] ->
  CLStateGetOpt st t = Ok (st, None).
Proof.
  intros [k i z n v] ps (A & B & (j & C) & D & E).
  cbn [sc_opt_c argi argsize argc argv] in *. subst i v.
  unfold CLStateGetOpt. cbn [sc_opt_c argi argsize argc argv].
  rewrite skipn_args. cbn [map app skip_plain bind].
  unfold with_argi. cbn [sc_opt_c argi argsize argc argv].
  rewrite get_null. reflexivity.
Qed.

Lemma skip_all_args : forall l j i,
  skip_all (map Arg l ++ Null :: j) i = Ok (i + length l)%nat.
Proof.
  induction l as [|a l IH]; intros j i; cbn.
  - rewrite Nat.add_0_r. reflexivity.
  - rewrite IH. f_equal. lia.
Qed.

Lemma getopt_stop : forall st ps l, rep st ps (text "--" :: l) ->
  exists st', CLStateGetOpt st t = Ok (st', None) /\ rep st' (ps ++ l) [].
Proof.
  intros st ps l R. rewrite (getopt_at _ _ _ _ R).
  2:{ exists dash, []. split; [reflexivity|discriminate]. }
  cbn [text list_ascii_of_string eqstr]. rewrite !Ascii.eqb_refl. cbn [andb].
  destruct (drop_rep _ _ _ _ R) as (st1 & -> & (A & B & (j & C) & D & E) & _).
  cbn [bind]. rewrite A, C, skipn_args, skip_all_args. cbn [bind].
  eexists. split; [reflexivity|]. unfold rep, with_argi.
  cbn [sc_opt_c argi argsize argc argv]. rewrite app_nil_r, app_length in *.
  repeat split; auto. exists j. exact C.
Qed.

End WithTable.
