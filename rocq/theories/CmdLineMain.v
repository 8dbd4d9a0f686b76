(** From the options loop to the command line. *)

From Coq Require Import ZArith String Ascii List Bool Lia Arith.
From Verif Require Import CmdLine CmdLineSpec CmdLineProofs CmdLineRun.
Import ListNotations.
Local Open Scope Z_scope.

Lemma size_cons : forall a l, size (a :: l) = (length a + size l)%nat.
Proof. reflexivity. Qed.

Ltac sz L := rewrite ?size_cons in L;
  cbn [text list_ascii_of_string app length] in L |- *;
  rewrite ?app_length in L; cbn [length] in L; lia.

Section WithTable.
Variables (os t : list opt).
Hypothesis T : table os t.

Local Notation gives := (gives t).

Definition flag (c : ascii) (o : opt) : Prop :=
  lettered os c o /\ o_kind o <> ReqArg.

Lemma cluster_ok : forall rest hs, Forall2 flag rest hs ->
  forall k st n ps c cs l fs as_,
  rep st ps ((dash :: c :: cs) :: l) -> c <> dash ->
  c_string (dash :: c :: cs) ->
  (sc_opt_c st = k \/ sc_opt_c st = 0%nat /\ k = 1%nat) -> (1 <= k)%nat ->
  skipn k (dash :: c :: cs) = rest -> rest <> [] ->
  (length rest + size l < n)%nat ->
  (forall st' n', rep st' ps l -> sc_opt_c st' = 0%nat -> (size l < n')%nat ->
     gives st' n' ps fs as_) ->
  gives st n ps (map (fun o => (o, without o)) hs ++ fs) as_.
Proof.
  induction 1 as [|d o rest hs [H1 H2] F IH];
    intros k st n ps c cs l fs as_ R N CS K K1 E NE L G; [contradiction|].
  destruct n as [|n]; [lia|]. cbn [length] in L.
  apply (letter_named os t T) in H1.
  destruct (letter_flag t st ps c cs l k d rest o R N CS K K1 E H1 H2)
    as (st' & A & [(-> & B & C)|(B0 & B & C)]).
  - inversion F; subst. cbn [map app]. eapply gives_some; eauto.
    apply G; auto. lia.
  - cbn [map app]. eapply gives_some; eauto.
    eapply IH; eauto; try lia. eapply skipn_succ; eauto.
Qed.

Lemma loop_complete : forall l fs as_, reads os l fs as_ ->
  forall st n ps, Forall c_string l -> rep st ps l -> sc_opt_c st = 0%nat ->
  (size l < n)%nat -> gives st n ps fs as_.
Proof.
  induction 1 as [|a l fs as_ P H IH|l|name o l fs as_ NE NI NA KI H IH
    |name v o l fs as_ NI NA KI H IH|c cs hs l fs as_ ND FA H IH
    |c v o l fs as_ ND NV LE KI H IH|c v o l fs as_ ND LE KI H IH];
    intros st n ps CS R Z0 L; destruct n as [|n]; try lia.
  - exists st. cbn [options_loop]. rewrite (getopt_nil t _ _ R). cbn [bind].
    split; auto. rewrite app_nil_r. exact R.
  - apply Forall_cons_iff in CS. destruct CS as [_ CS].
    destruct (IH (with_argi st (S (argi st))) (S n) (ps ++ [a])) as (s2 & A & B);
      auto.
    + apply rep_shift. exact R.
    + sz L.
    + exists s2. rewrite (loop_plain t _ _ _ _ _ R P). split; auto.
      rewrite <- app_assoc in B. exact B.
  - destruct (getopt_stop t _ _ _ R) as (s2 & A & B). exists s2.
    cbn [options_loop]. rewrite A. split; auto.
  - apply Forall_cons_iff in CS. destruct CS as [_ CS].
    destruct (getopt_long t st ps name l R NE) as (s2 & R2 & S2 & A).
    destruct (name_len_all name NI) as [Q1 Q2].
    rewrite Q1, Q2 in A.
    rewrite (search_named os t T name name (length name) o) in A; auto.
    2:{ symmetry. apply firstn_all. }
    cbn [bind] in A.
    replace (long_arg o None) with (Ok (without o)) in A
      by (unfold long_arg, without; destruct (o_kind o); try reflexivity; contradiction).
    cbn [bind] in A. eapply gives_some; eauto. apply IH; auto; try congruence.
    sz L.
  - apply Forall_cons_iff in CS. destruct CS as [_ CS].
    destruct (getopt_long t st ps (name ++ eqs :: v) l R) as (s2 & R2 & S2 & A).
    { destruct name; discriminate. }
    destruct (name_len_app name v NI) as [Q1 Q2].
    rewrite Q1, Q2 in A.
    rewrite (search_named os t T name (name ++ eqs :: v) (length name) o) in A;
      auto.
    2:{ rewrite firstn_app, firstn_all, Nat.sub_diag. cbn. symmetry.
        apply app_nil_r. }
    2:{ rewrite app_length. lia. }
    cbn [bind] in A.
    replace (long_arg o (Some v)) with (Ok (Some v)) in A
      by (unfold long_arg; destruct (o_kind o); try reflexivity; contradiction).
    cbn [bind] in A. eapply gives_some; eauto. apply IH; auto; try congruence.
    sz L.
  - apply Forall_cons_iff in CS. destruct CS as [CS1 CS].
    apply (cluster_ok (c :: cs) hs FA 1 st (S n) ps c cs l fs as_ R ND CS1);
      auto; try discriminate.
    sz L.
  - apply Forall_cons_iff in CS. destruct CS as [CS1 CS].
    apply (letter_named os t T) in LE.
    pose proof (letter_req t st ps c v l o R ND CS1 Z0 LE KI) as Q.
    destruct v as [|d v]; [contradiction|].
    destruct Q as (s2 & A & R2 & S2). eapply gives_some; eauto.
    apply IH; auto. sz L.
  - apply Forall_cons_iff in CS. destruct CS as [CS1 CS].
    apply Forall_cons_iff in CS. destruct CS as [CS2 CS].
    apply (letter_named os t T) in LE.
    pose proof (letter_req t st ps c [] (v :: l) o R ND CS1 Z0 LE KI) as Q.
    destruct Q as (s2 & A & R2 & S2). eapply gives_some; eauto.
    apply IH; auto. sz L.
Qed.

(** Whatever the arguments are. *)
Definition decided (l : list str) (st : clstate) (n : nat) (ps : list str)
  : Prop :=
  options_loop n st t = Usage \/
  exists fs as_, reads os l fs as_ /\ gives st n ps fs as_.

Lemma cluster_decided : forall rest k st n ps c cs l,
  rep st ps ((dash :: c :: cs) :: l) -> c <> dash ->
  c_string (dash :: c :: cs) ->
  (sc_opt_c st = k \/ sc_opt_c st = 0%nat /\ k = 1%nat) -> (1 <= k)%nat ->
  skipn k (dash :: c :: cs) = rest -> rest <> [] ->
  (length rest + size l < n)%nat ->
  (k = 1%nat -> forall o, find_short_opt c t = Ok (Some o) ->
     o_kind o <> ReqArg) ->
  (forall st' n', rep st' ps l -> sc_opt_c st' = 0%nat -> (size l < n')%nat ->
     decided l st' n' ps) ->
  options_loop n st t = Usage \/
  exists hs fs as_, Forall2 flag rest hs /\ reads os l fs as_ /\
    gives st n ps (map (fun o => (o, without o)) hs ++ fs) as_.
Proof.
  induction rest as [|d rest IH];
    intros k st n ps c cs l R N CS K K1 E NE L NR G; [contradiction|].
  destruct n as [|n]; [lia|]. cbn [length] in L.
  destruct (letter_found os t T d) as [(o & F & Lo)|[F _]].
  2:{ left. apply usage_now. eapply letter_none; eauto. }
  assert (KD : o_kind o = ReqArg \/ o_kind o <> ReqArg)
    by (destruct (o_kind o); auto; right; discriminate).
  destruct KD as [KD|KD].
  - destruct (Nat.eq_dec k 1) as [->|K2].
    + cbn in E. injection E as -> ->. exfalso. eapply NR; eauto.
    + left. apply usage_now. eapply (req_late t st ps c cs l k); eauto; try lia.
  - destruct (letter_flag t st ps c cs l k d rest o R N CS K K1 E F KD)
      as (st' & A & [(-> & B & C)|(B0 & B & C)]).
    + destruct (G st' n B C) as [U|(fs & as_ & P & Q)]; [lia| |].
      * left. eapply usage_some; eauto.
      * right. exists [o], fs, as_. repeat split; auto.
        -- constructor; [split; auto|constructor].
        -- cbn [map app]. eapply gives_some; eauto.
    + destruct (IH (S k) st' n ps c cs l B N CS) as [U|(hs & fs & as_ & P & Q & V)];
        auto; try lia.
      * eapply skipn_succ; eauto.
      * left. eapply usage_some; eauto.
      * right. exists (o :: hs), fs, as_. repeat split; auto.
        -- constructor; [split; auto|auto].
        -- cbn [map app]. eapply gives_some; eauto.
Qed.

Lemma loop_decided : forall m l, (length l <= m)%nat -> forall st n ps,
  Forall c_string l -> rep st ps l -> sc_opt_c st = 0%nat ->
  (size l < n)%nat -> decided l st n ps.
Proof.
  induction m as [|m IH]; intros l M st n ps CS R Z0 L;
    destruct n as [|n]; try lia.
  - destruct l; [|cbn in M; lia]. right. exists [], []. split; [constructor|].
    exists st. cbn [options_loop]. rewrite (getopt_nil t _ _ R). cbn [bind].
    split; auto. rewrite app_nil_r. exact R.
  - destruct l as [|a l].
    { right. exists [], []. split; [constructor|].
      exists st. cbn [options_loop]. rewrite (getopt_nil t _ _ R). cbn [bind].
      split; auto. rewrite app_nil_r. exact R. }
    apply Forall_cons_iff in CS. destruct CS as [CS1 CS].
    cbn [length] in M.
    assert (L2 : (length a + size l < S n)%nat) by exact L.
    assert (P : plain a \/ exists c cs, a = dash :: c :: cs).
    { destruct a as [|c a]; [left; right; exact I|].
      destruct (ascii_dec c dash) as [->|D].
      - destruct a as [|c' a]; [left; left; reflexivity|right; eauto].
      - left. right. exact D. }
    destruct P as [P|(c & cs & ->)].
    { destruct (IH l ltac:(lia) (with_argi st (S (argi st))) (S n) (ps ++ [a]))
        as [U|(fs & as_ & Q & s2 & A & B)]; auto; try lia.
      - apply rep_shift. exact R.
      - left. rewrite (loop_plain t _ _ _ _ _ R P). exact U.
      - right. exists fs, (a :: as_). split; [constructor; auto|].
        exists s2. rewrite (loop_plain t _ _ _ _ _ R P). split; auto.
        rewrite <- app_assoc in B. exact B. }
    cbn [length] in L2.
    destruct (ascii_dec c dash) as [->|D].
    { destruct cs as [|x cs].
      { destruct (getopt_stop t _ _ _ R) as (s2 & A & B). right.
        exists [], l. split; [constructor|]. exists s2.
        cbn [options_loop]. rewrite A. split; auto. }
      set (name := x :: cs) in *.
      assert (NN : name <> []) by discriminate.
      destruct (getopt_long t st ps name l R NN) as (s2 & R2 & S2 & A).
      destruct (name_split name) as [(B & C & E)|(m0 & v & B & C & E & F)].
      - rewrite C, E in A.
        destruct (search_found os t T name name (length name)) as
          [(o & G & H)|[G H]]; auto.
        { symmetry. apply firstn_all. }
        2:{ left. apply usage_now. rewrite A, G. reflexivity. }
        rewrite G in A. cbn [bind] in A.
        assert (KD : o_kind o = ReqArg \/ o_kind o <> ReqArg)
          by (destruct (o_kind o); auto; right; discriminate).
        destruct KD as [KD|KD].
        + left. apply usage_now. rewrite A. unfold long_arg. rewrite KD.
          reflexivity.
        + replace (long_arg o None) with (Ok (without o)) in A
            by (unfold long_arg, without; destruct (o_kind o); try reflexivity; contradiction).
          cbn [bind] in A.
          destruct (IH l ltac:(lia) s2 n ps) as [U|(fs & as_ & Q & V)]; auto;
            try congruence; try lia.
          * left. eapply usage_some; eauto.
          * right. exists ((o, without o) :: fs), as_. split.
            -- apply (r_long os name o); auto.
            -- eapply gives_some; eauto.
      - rewrite E, F in A.
        destruct (search_found os t T m0 name (length m0)) as
          [(o & G & H)|[G H]]; auto.
        { rewrite B, firstn_app, firstn_all, Nat.sub_diag. cbn. symmetry.
          apply app_nil_r. }
        { rewrite B, app_length. lia. }
        2:{ left. apply usage_now. rewrite A, G. reflexivity. }
        rewrite G in A. cbn [bind] in A.
        assert (KD : o_kind o = NoArg \/ o_kind o <> NoArg)
          by (destruct (o_kind o); auto; right; discriminate).
        destruct KD as [KD|KD].
        + left. apply usage_now. rewrite A. unfold long_arg. rewrite KD.
          reflexivity.
        + replace (long_arg o (Some v)) with (Ok (Some v)) in A
            by (unfold long_arg; destruct (o_kind o); try reflexivity; contradiction).
          cbn [bind] in A.
          destruct (IH l ltac:(lia) s2 n ps) as [U|(fs & as_ & Q & V)]; auto;
            try congruence; try lia.
          * left. eapply usage_some; eauto.
          * right. exists ((o, Some v) :: fs), as_. split.
            -- rewrite B. apply (r_long_arg os m0 v o); auto.
            -- eapply gives_some; eauto. }
    destruct (letter_found os t T c) as [(o & F & Lo)|[F _]].
    2:{ left. apply usage_now.
        eapply (letter_none t st ps c cs l 1); eauto. reflexivity. }
    assert (KD : o_kind o = ReqArg \/ o_kind o <> ReqArg)
      by (destruct (o_kind o); auto; right; discriminate).
    destruct KD as [KD|KD].
    + pose proof (letter_req t st ps c cs l o R D CS1 Z0 F KD) as Q.
      destruct cs as [|d cs].
      * destruct l as [|v l]; [left; apply usage_now; exact Q|].
        destruct Q as (s2 & A & R2 & S2).
        apply Forall_cons_iff in CS. destruct CS as [CS2 CS].
        cbn in M. destruct (IH l ltac:(lia) s2 n ps) as [U|(fs & as_ & Q & V)];
          auto.
        { sz L2. }
        -- left. eapply usage_some; eauto.
        -- right. exists ((o, Some v) :: fs), as_. split.
           ++ apply (r_letter_next os c v o); auto.
           ++ eapply gives_some; eauto.
      * destruct Q as (s2 & A & R2 & S2).
        destruct (IH l ltac:(lia) s2 n ps) as [U|(fs & as_ & Q & V)]; auto;
          try lia.
        -- left. eapply usage_some; eauto.
        -- right. exists ((o, Some (d :: cs)) :: fs), as_. split.
           ++ apply (r_letter_joined os c (d :: cs) o); auto. discriminate.
           ++ eapply gives_some; eauto.
    + destruct (cluster_decided (c :: cs) 1 st (S n) ps c cs l R D CS1)
        as [U|(hs & fs & as_ & P & Q & V)]; auto; try discriminate.
      * cbn [length]. lia.
      * intros _ o' F'. congruence.
      * intros st' n' R' S' L'. apply IH; auto. lia.
      * left. exact U.
      * right. eexists. exists as_. split; [|exact V].
        apply (r_letters os c cs hs); auto.
Qed.

End WithTable.

(* ------------------------------------------------------------------ *)
(** * The whole *)

Lemma files_args : forall l j, files (map Arg l ++ Null :: j) = Ok l.
Proof. induction l as [|a l IH]; intros j; cbn; auto. rewrite IH. reflexivity. Qed.

Lemma alloc_rep : forall p args, exists st,
  CLStateAlloc (p :: args) = Ok st /\ rep st [] args /\ sc_opt_c st = 0%nat.
Proof.
  intros p args. unfold CLStateAlloc, shift_array_left.
  cbn [map app skipn]. rewrite shift_args. cbn [bind firstn app length].
  eexists. split; [reflexivity|]. split; [|reflexivity].
  unfold rep. cbn [argi argc argv argsize app length].
  repeat split; try lia.
  - exists [Null; Junk]. reflexivity.
  - rewrite app_length, map_length. cbn. lia.
Qed.

Lemma insert_ok : forall st, rep st [] [] -> exists st',
  CLStateInsertArg st [dash] = Ok st' /\ exists j,
  argv st' = Arg [dash] :: Null :: j.
Proof.
  intros [k i z n v] (A & B & (j & C) & D & E). cbn in *. subst i n v.
  unfold CLStateInsertArg. cbn [argsize argc argv argi sc_opt_c].
  destruct j as [|x j]; [cbn in D; lia|].
  destruct (z =? 0 + 2); cbn; eexists; (split; [reflexivity|]); cbn; eauto.
Qed.

Lemma rest_files : forall st as_, rep st as_ [] ->
  (do st2 <- (if argc st =? 0 then CLStateInsertArg st [dash] else Ok st);
   files (argv st2)) = Ok (inputs as_).
Proof.
  intros st as_ R. destruct as_ as [|a as_].
  - destruct (insert_ok st R) as (st' & A & j & B).
    destruct R as (_ & C & _). cbn in C. rewrite C. cbn [Z.eqb].
    rewrite A. cbn [bind]. rewrite B. reflexivity.
  - destruct R as (A & C & (j & D) & _). rewrite app_nil_r in *.
    destruct (argc st =? 0) eqn:E; [apply Z.eqb_eq in E; cbn in C; lia|].
    cbn [bind]. rewrite D, files_args. reflexivity.
Qed.

Lemma run_ok : forall os t p args fs as_, table os t -> Forall c_string args ->
  reads os args fs as_ ->
  command_line (p :: args) t = Ok (fs, inputs as_).
Proof.
  intros os t p args fs as_ T CS H. unfold command_line.
  destruct (alloc_rep p args) as (st & -> & R & S0). cbn [bind].
  destruct (loop_complete os t T args fs as_ H st (rounds (p :: args)) [] CS R S0)
    as (s2 & -> & R2).
  { unfold rounds, size. cbn. lia. }
  cbn [bind]. cbn [app] in R2. pose proof (rest_files s2 as_ R2) as F.
  destruct (if argc s2 =? 0 then CLStateInsertArg s2 [dash] else Ok s2);
    cbn [bind] in *; try discriminate.
  rewrite F. reflexivity.
Qed.

Lemma run_decided : forall os t p args, table os t -> Forall c_string args ->
  command_line (p :: args) t = Usage \/ exists fs as_, reads os args fs as_.
Proof.
  intros os t p args T CS.
  destruct (alloc_rep p args) as (st & A & R & S0).
  destruct (loop_decided os t T (length args) args (le_n _) st
              (rounds (p :: args)) [] CS R S0) as [U|(fs & as_ & H & _)].
  - unfold rounds, size. cbn. lia.
  - left. unfold command_line. rewrite A. cbn [bind]. rewrite U. reflexivity.
  - right. eauto.
Qed.

(* ------------------------------------------------------------------ *)
(** * Adding arguments *)

Lemma put_here : forall l x r c,
  put (map Arg l ++ x :: r) (length l) c = Ok (map Arg l ++ c :: r).
Proof.
  induction l as [|a l IH]; intros x r c; [reflexivity|].
  cbn [map app length put]. rewrite IH. reflexivity.
Qed.

Lemma insert_rep : forall st l a, rep st [] l -> exists st',
  CLStateInsertArg st a = Ok st' /\ rep st' [] (l ++ [a]).
Proof.
  intros [k i z n v] l a (A & B & (j & C) & D & E). cbn in A, B, C, D, E.
  unfold CLStateInsertArg. cbn [argsize argc argv argi sc_opt_c].
  assert (J : exists z' y j',
    (if z =? n + 2 then (z + 1, v ++ [Junk]) else (z, v)) =
      (z', map Arg l ++ Null :: y :: j') /\
    n + 3 <= z' /\
    Z.of_nat (length (map Arg l ++ Null :: y :: j')) = z').
  { subst v. rewrite app_length, map_length in D. cbn [length] in D.
    destruct j as [|y j]; [cbn in D; lia|].
    destruct (z =? n + 2) eqn:Q.
    - apply Z.eqb_eq in Q. exists (z + 1), y, (j ++ [Junk]). split; [|split].
      + rewrite <- app_assoc. reflexivity.
      + lia.
      + rewrite app_length, map_length. cbn [length] in *.
        rewrite app_length. cbn [length]. lia.
    - apply Z.eqb_neq in Q. exists z, y, j. split; [|split]; auto; try lia.
      rewrite app_length, map_length. exact D. }
  destruct J as (z' & y & j' & J & K & M). rewrite J.
  unfold putz. subst n.
  destruct (Z.of_nat (length l) <? 0) eqn:Q; [apply Z.ltb_lt in Q; lia|].
  rewrite Nat2Z.id, put_here. cbn [bind].
  destruct (Z.of_nat (length l) + 1 <? 0) eqn:Q2; [apply Z.ltb_lt in Q2; lia|].
  replace (map Arg l ++ Arg a :: y :: j') with (map Arg (l ++ [a]) ++ y :: j')
    by (rewrite map_app, <- app_assoc; reflexivity).
  replace (Z.to_nat (Z.of_nat (length l) + 1)) with (length (l ++ [a]))
    by (rewrite app_length; cbn; lia).
  rewrite put_here. cbn [bind]. eexists. split; [reflexivity|].
  unfold rep. cbn [argsize argc argv argi sc_opt_c app length].
  repeat split; auto; try lia.
  - rewrite app_length. cbn. lia.
  - eauto.
  - rewrite <- M. rewrite !app_length, !map_length, !app_length. cbn. lia.
Qed.

Lemma insert_all_rep : forall l st l0, rep st [] l0 -> exists st',
  insert_all st l = Ok st' /\ rep st' [] (l0 ++ l).
Proof.
  induction l as [|a l IH]; intros st l0 R.
  - exists st. rewrite app_nil_r. auto.
  - destruct (insert_rep st l0 a R) as (s1 & A & B).
    destruct (IH s1 (l0 ++ [a]) B) as (s2 & C & D).
    exists s2. cbn [insert_all]. rewrite A. cbn [bind].
    rewrite <- app_assoc in D. auto.
Qed.

Lemma reads_one : forall os t l fs1 as1 fs2 as2, table os t ->
  Forall c_string l -> reads os l fs1 as1 -> reads os l fs2 as2 ->
  fs1 = fs2 /\ as1 = as2.
Proof.
  intros os t l fs1 as1 fs2 as2 T CS H1 H2.
  destruct (alloc_rep [] l) as (st & _ & R & S0).
  destruct (loop_complete os t T l fs1 as1 H1 st (S (size l)) [] CS R S0)
    as (s1 & A1 & (_ & _ & (j1 & B1) & _)); [lia|].
  destruct (loop_complete os t T l fs2 as2 H2 st (S (size l)) [] CS R S0)
    as (s2 & A2 & (_ & _ & (j2 & B2) & _)); [lia|].
  rewrite A1 in A2. injection A2 as <- <-. split; auto.
  rewrite B1 in B2. rewrite !app_nil_r in B2. cbn [app] in B2.
  assert (F : files (map Arg as1 ++ Null :: j1) = files (map Arg as2 ++ Null :: j2))
    by (rewrite B2; reflexivity).
  rewrite !files_args in F. injection F as F. exact F.
Qed.
