(** The options loop gives what the command line says. *)

From Coq Require Import ZArith String Ascii List Bool Lia Arith.
From Verif Require Import CmdLine CmdLineSpec CmdLineProofs.
Import ListNotations.
Local Open Scope Z_scope.

Lemma skipn_succ : forall A k (l : list A) d r,
  skipn k l = d :: r -> skipn (S k) l = r.
Proof.
  induction k as [|k IH]; intros [|x l] d r H; cbn in H; try discriminate.
  - injection H as _ <-. reflexivity.
  - cbn [skipn]. apply IH in H. exact H.
Qed.

Section WithTable.
Variables (os t : list opt).
Hypothesis T : table os t.

(** The argument of a long option, or an error. *)
Definition long_arg (o : opt) (v : option str) : out (option str) :=
  match o_kind o, v with
  | NoArg, Some _ => Usage
  | NoArg, None => Ok None
  | OptArg, Some v => Ok (Some v)
  | OptArg, None => Ok (o_default o)
  | ReqArg, None => Usage
  | ReqArg, Some v => Ok (Some v)
  end.

Lemma getopt_long : forall st ps n l, rep st ps ((dash :: dash :: n) :: l) ->
  n <> [] ->
  exists st', rep st' ps l /\ sc_opt_c st' = sc_opt_c st /\
  CLStateGetOpt st t =
  do h <- search_long n (name_len n) t;
  match h with
  | None => Usage
  | Some o => do a <- long_arg o (after_eq n); Ok (st', Some (o, a))
  end.
Proof.
  intros st ps n l R N.
  destruct (drop_rep _ _ _ _ R) as (st' & D & R' & S').
  exists st'. repeat split; try apply R'; auto.
  rewrite (getopt_at t _ _ _ _ R).
  2:{ exists dash, n. split; [reflexivity|discriminate]. }
  replace (eqstr (dash :: dash :: n) [dash; dash]) with false.
  2:{ cbn [eqstr]. rewrite !Ascii.eqb_refl. cbn [andb].
      destruct n; [contradiction|reflexivity]. }
  cbn [eqn]. rewrite !Ascii.eqb_refl. cbn [andb].
  unfold process_long_option. pose proof R as (A & B & (j & C) & _).
  rewrite A, C, get_args. cbn [bind]. unfold find_long_opt. cbn [skipn].
  destruct (search_long n (name_len n) t) as [[o|]| | |]; cbn [bind]; auto.
  cbn [after_eq]. replace (Ascii.eqb dash eqs) with false by reflexivity.
  unfold long_arg.
  destruct (o_kind o), (after_eq n); cbn [bind]; rewrite ?D; reflexivity.
Qed.

(** One letter of a cluster. *)
Lemma getopt_letter : forall st ps c cs l k d,
  rep st ps ((dash :: c :: cs) :: l) -> c <> dash ->
  c_string (dash :: c :: cs) ->
  (sc_opt_c st = k \/ sc_opt_c st = 0%nat /\ k = 1%nat) -> (1 <= k)%nat ->
  nth_error (dash :: c :: cs) k = Some d ->
  exists st1, (exists b, st1 = with_sc st b) /\ sc_opt_c st1 = k /\
  CLStateGetOpt st t =
  do h <- find_short_opt d t;
  match h with
  | None => Usage
  | Some o =>
      match o_kind o with
      | OptArg => do st' <- next_in_cluster st1 (dash :: c :: cs);
                  Ok (st', Some (o, o_default o))
      | NoArg => do st' <- next_in_cluster st1 (dash :: c :: cs);
                 Ok (st', Some (o, None))
      | ReqArg => do (st', v) <- short_with_arg st1 (dash :: c :: cs);
                  Ok (st', Some (o, Some v))
      end
  end.
Proof.
  intros st ps c cs l k d R N CS K K1 E.
  exists (with_sc st k). split; [exists k; reflexivity|]. split; [reflexivity|].
  rewrite (getopt_at t _ _ _ _ R).
  2:{ exists c, cs. split; [reflexivity|]. intros ->. apply CS. right. left.
      reflexivity. }
  assert (Q : Ascii.eqb c dash = false) by (apply Ascii.eqb_neq; exact N).
  cbn [eqstr eqn]. rewrite Q, Ascii.eqb_refl. cbn [andb].
  replace (if Nat.eqb (sc_opt_c st) 0 then with_sc st 1 else st)
    with (with_sc st k).
  2:{ destruct K as [K|[K ->]].
      - destruct (Nat.eqb (sc_opt_c st) 0) eqn:Z0.
        + apply Nat.eqb_eq in Z0. lia.
        + subst k. destruct st. reflexivity.
      - rewrite K. reflexivity. }
  unfold process_short_option. pose proof R as (A & B & (j & C) & _).
  replace (argi (with_sc st k)) with (length ps) by (rewrite <- A; reflexivity).
  replace (argv (with_sc st k)) with (argv st) by reflexivity.
  rewrite C, get_args. cbn [bind].
  replace (sc_opt_c (with_sc st k)) with k by reflexivity.
  rewrite (at_in _ _ _ E). reflexivity.
Qed.

Lemma next_more : forall st1 s d, c_string s ->
  nth_error s (S (sc_opt_c st1)) = Some d ->
  next_in_cluster st1 s = Ok (with_sc st1 (S (sc_opt_c st1))).
Proof.
  intros st1 s d CS E. unfold next_in_cluster.
  replace (sc_opt_c (with_sc st1 (S (sc_opt_c st1))))
    with (S (sc_opt_c st1)) by reflexivity.
  rewrite (at_in _ _ _ E). cbn [bind].
  destruct (Ascii.eqb d nul) eqn:Q; auto.
  apply Ascii.eqb_eq in Q. subst d. exfalso. apply CS.
  eapply nth_error_In; eauto.
Qed.

Lemma next_last : forall st1 s ps l, rep st1 ps (s :: l) ->
  S (sc_opt_c st1) = length s ->
  exists st', next_in_cluster st1 s = Ok st' /\ rep st' ps l /\
              sc_opt_c st' = 0%nat.
Proof.
  intros st1 s ps l R E. unfold next_in_cluster.
  replace (sc_opt_c (with_sc st1 (S (sc_opt_c st1))))
    with (S (sc_opt_c st1)) by reflexivity.
  rewrite E, at_end. cbn [bind].
  replace (Ascii.eqb nul nul) with true by reflexivity.
  destruct (drop_rep (with_sc (with_sc st1 (length s)) 0) ps s l) as
    (st' & A & B & C); [exact R|].
  exists st'. repeat split; auto; apply B.
Qed.

Definition size (l : list str) : nat :=
  fold_right (fun s n => length s + n)%nat 0%nat l.

Definition gives (st : clstate) (fuel : nat) (ps : list str)
  (fs : list found) (as_ : list str) : Prop :=
  exists st', options_loop fuel st t = Ok (st', fs) /\ rep st' (ps ++ as_) [].

Lemma loop_some : forall st n st' f, CLStateGetOpt st t = Ok (st', Some f) ->
  options_loop (S n) st t =
  do (st2, fs) <- options_loop n st' t; Ok (st2, f :: fs).
Proof. intros st n st' f H. cbn [options_loop]. rewrite H. reflexivity. Qed.

Lemma gives_some : forall st n st' f ps fs as_,
  CLStateGetOpt st t = Ok (st', Some f) -> gives st' n ps fs as_ ->
  gives st (S n) ps (f :: fs) as_.
Proof.
  intros st n st' f ps fs as_ H (s2 & A & B). exists s2. split; auto.
  rewrite (loop_some _ _ _ _ H), A. reflexivity.
Qed.

Lemma usage_some : forall st n st' f,
  CLStateGetOpt st t = Ok (st', Some f) -> options_loop n st' t = Usage ->
  options_loop (S n) st t = Usage.
Proof. intros st n st' f H A. rewrite (loop_some _ _ _ _ H), A. reflexivity. Qed.

Lemma usage_now : forall st n,
  CLStateGetOpt st t = Usage -> options_loop (S n) st t = Usage.
Proof. intros st n H. cbn [options_loop]. rewrite H. reflexivity. Qed.

Lemma loop_plain : forall st ps a l fuel, rep st ps (a :: l) -> plain a ->
  options_loop fuel st t = options_loop fuel (with_argi st (S (argi st))) t.
Proof.
  intros st ps a l [|n] R P; cbn [options_loop]; auto.
  rewrite (getopt_plain t _ _ _ _ R P). reflexivity.
Qed.

(** What a letter that takes no argument does. *)
Lemma letter_flag : forall st ps c cs l k d rest o,
  rep st ps ((dash :: c :: cs) :: l) -> c <> dash ->
  c_string (dash :: c :: cs) ->
  (sc_opt_c st = k \/ sc_opt_c st = 0%nat /\ k = 1%nat) -> (1 <= k)%nat ->
  skipn k (dash :: c :: cs) = d :: rest ->
  find_short_opt d t = Ok (Some o) -> o_kind o <> ReqArg ->
  exists st', CLStateGetOpt st t = Ok (st', Some (o, without o)) /\
   (rest = [] /\ rep st' ps l /\ sc_opt_c st' = 0%nat \/
    rest <> [] /\ rep st' ps ((dash :: c :: cs) :: l) /\ sc_opt_c st' = S k).
Proof.
  intros st ps c cs l k d rest o R N CS K K1 E F G.
  assert (Ed : nth_error (dash :: c :: cs) k = Some d).
  { rewrite <- (firstn_skipn k (dash :: c :: cs)), E.
    assert (L : length (firstn k (dash :: c :: cs)) = k).
    { apply firstn_length_le.
      assert (H : length (skipn k (dash :: c :: cs)) = S (length rest))
        by (rewrite E; reflexivity).
      rewrite skipn_length in H. lia. }
    rewrite nth_error_app2; rewrite L; auto. rewrite Nat.sub_diag. reflexivity. }
  assert (LL : (length (dash :: c :: cs) = k + S (length rest))%nat).
  { assert (H : length (skipn k (dash :: c :: cs)) = S (length rest))
      by (rewrite E; reflexivity).
    rewrite skipn_length in H. lia. }
  destruct (getopt_letter st ps c cs l k d R N CS K K1 Ed)
    as (st1 & (b & B) & S1 & GO).
  rewrite GO, F. cbn [bind].
  assert (X : exists st', next_in_cluster st1 (dash :: c :: cs) = Ok st' /\
   (rest = [] /\ rep st' ps l /\ sc_opt_c st' = 0%nat \/
    rest <> [] /\ rep st' ps ((dash :: c :: cs) :: l) /\ sc_opt_c st' = S k)).
  { destruct rest as [|d' rest].
    - destruct (next_last st1 (dash :: c :: cs) ps l) as (st' & A1 & A2 & A3).
      + subst st1. exact R.
      + rewrite S1, LL. cbn. lia.
      + exists st'. split; auto.
    - exists (with_sc st1 (S k)). split.
      + rewrite <- S1. apply next_more with (d := d'); auto. rewrite S1.
        assert (E2 : skipn (S k) (dash :: c :: cs) = d' :: rest).
        { eapply skipn_succ; eauto. }
        rewrite <- (firstn_skipn (S k) (dash :: c :: cs)), E2.
        assert (L : length (firstn (S k) (dash :: c :: cs)) = S k)
          by (apply firstn_length_le; rewrite LL; cbn; lia).
        rewrite nth_error_app2; rewrite L; auto. rewrite Nat.sub_diag. reflexivity.
      + right. split; [discriminate|]. subst st1. split; [exact R|reflexivity]. }
  destruct X as (st' & X1 & X2). exists st'. split; auto.
  unfold without. destruct (o_kind o); try contradiction; rewrite X1; reflexivity.
Qed.

(** What a letter that takes an argument does at the start. *)
Lemma letter_req : forall st ps c cs l o,
  rep st ps ((dash :: c :: cs) :: l) -> c <> dash ->
  c_string (dash :: c :: cs) -> sc_opt_c st = 0%nat ->
  find_short_opt c t = Ok (Some o) -> o_kind o = ReqArg ->
  match cs, l with
  | [], [] => CLStateGetOpt st t = Usage
  | [], v :: l' => exists st', CLStateGetOpt st t = Ok (st', Some (o, Some v)) /\
                   rep st' ps l' /\ sc_opt_c st' = 0%nat
  | _, _ => exists st', CLStateGetOpt st t = Ok (st', Some (o, Some cs)) /\
            rep st' ps l /\ sc_opt_c st' = 0%nat
  end.
Proof.
  intros st ps c cs l o R N CS Z0 F G.
  destruct (getopt_letter st ps c cs l 1 c R N CS) as (st1 & (b & B) & S1 & GO);
    auto.
  rewrite F in GO. cbn [bind] in GO. rewrite G in GO.
  unfold short_with_arg in GO. rewrite S1 in GO. cbn [Nat.eqb negb] in GO.
  assert (R1 : rep st1 ps ((dash :: c :: cs) :: l)) by (subst st1; exact R).
  destruct cs as [|d cs].
  - replace (at_ [dash; c] (1 + 1)) with (@Ok ascii nul) in GO by reflexivity.
    cbn [bind] in GO. replace (Ascii.eqb nul nul) with true in GO by reflexivity.
    cbn [negb] in GO.
    destruct (drop_rep _ _ _ _ R1) as (s2 & D & R2 & _). rewrite D in GO.
    cbn [bind] in GO. pose proof R2 as (A & _ & (j & C) & _).
    rewrite A, C in GO. destruct l as [|v l'].
    + rewrite get_null in GO. exact GO.
    + rewrite get_args in GO. cbn [bind] in GO.
      destruct (drop_rep (with_sc s2 0) ps v l') as (s3 & D3 & R3 & S3);
        [exact R2|].
      rewrite D3 in GO. cbn [bind] in GO. exists s3. auto.
  - replace (at_ (dash :: c :: d :: cs) (1 + 1)) with (@Ok ascii d) in GO
      by reflexivity.
    cbn [bind] in GO. destruct (Ascii.eqb d nul) eqn:Q.
    { apply Ascii.eqb_eq in Q. subst d. exfalso. apply CS. do 2 right. left.
      reflexivity. }
    cbn [negb] in GO.
    destruct (drop_rep (with_sc st1 0) ps _ l R1) as (s3 & D3 & R3 & S3).
    rewrite D3 in GO. cbn [bind] in GO. exists s3. auto.
Qed.

Lemma req_late : forall st ps c cs l k d rest o,
  rep st ps ((dash :: c :: cs) :: l) -> c <> dash ->
  c_string (dash :: c :: cs) -> sc_opt_c st = k -> (2 <= k)%nat ->
  skipn k (dash :: c :: cs) = d :: rest ->
  find_short_opt d t = Ok (Some o) -> o_kind o = ReqArg ->
  CLStateGetOpt st t = Usage.
Proof.
  intros st ps c cs l k d rest o R N CS K K1 E F G.
  assert (Ed : nth_error (dash :: c :: cs) k = Some d).
  { rewrite <- (firstn_skipn k (dash :: c :: cs)), E.
    assert (L : length (firstn k (dash :: c :: cs)) = k).
    { apply firstn_length_le.
      assert (H : length (skipn k (dash :: c :: cs)) = S (length rest))
        by (rewrite E; reflexivity).
      rewrite skipn_length in H. lia. }
    rewrite nth_error_app2; rewrite L; auto. rewrite Nat.sub_diag. reflexivity. }
  destruct (getopt_letter st ps c cs l k d R N CS) as (st1 & _ & S1 & GO); auto;
    try lia.
  rewrite GO, F. cbn [bind]. rewrite G. unfold short_with_arg. rewrite S1.
  destruct (Nat.eqb k 1) eqn:Q; [apply Nat.eqb_eq in Q; lia|]. reflexivity.
Qed.

Lemma letter_none : forall st ps c cs l k d rest,
  rep st ps ((dash :: c :: cs) :: l) -> c <> dash ->
  c_string (dash :: c :: cs) ->
  (sc_opt_c st = k \/ sc_opt_c st = 0%nat /\ k = 1%nat) -> (1 <= k)%nat ->
  skipn k (dash :: c :: cs) = d :: rest ->
  find_short_opt d t = Ok None -> CLStateGetOpt st t = Usage.
Proof.
  intros st ps c cs l k d rest R N CS K K1 E F.
  assert (Ed : nth_error (dash :: c :: cs) k = Some d).
  { rewrite <- (firstn_skipn k (dash :: c :: cs)), E.
    assert (L : length (firstn k (dash :: c :: cs)) = k).
    { apply firstn_length_le.
      assert (H : length (skipn k (dash :: c :: cs)) = S (length rest))
        by (rewrite E; reflexivity).
      rewrite skipn_length in H. lia. }
    rewrite nth_error_app2; rewrite L; auto. rewrite Nat.sub_diag. reflexivity. }
  destruct (getopt_letter st ps c cs l k d R N CS K K1 Ed) as (st1 & _ & S1 & GO).
  rewrite GO, F. reflexivity.
Qed.

End WithTable.
