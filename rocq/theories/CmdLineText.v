(** Numbers on the command line, and the layout of descriptions. *)

From Coq Require Import ZArith String Ascii List Bool Lia Arith.
From Verif Require Import CmdLine CmdLineSpec CmdLineProofs.
Import ListNotations.
Local Open Scope Z_scope.

Definition code (c : ascii) : Z := Z.of_nat (nat_of_ascii c).
Definition isdig (c : ascii) : Prop := 48 <= code c <= 57.

Definition val (acc : Z) (ds : str) : Z :=
  fold_left (fun a c => 10 * a + (code c - 48)) ds acc.

Lemma digit_some : forall c, isdig c -> digit c = Some (code c - 48).
Proof.
  intros c [A B]. unfold digit. fold (code c).
  apply Z.leb_le in A. apply Z.leb_le in B. rewrite A, B. reflexivity.
Qed.

Lemma digit_none : forall c, digit c = None -> ~ isdig c.
Proof. intros c H D. rewrite digit_some in H; auto. discriminate. Qed.

Lemma digit_dec : forall c d, digit c = Some d -> isdig c.
Proof.
  intros c d. unfold digit. fold (code c).
  destruct ((48 <=? code c) && (code c <=? 57)) eqn:E; [|discriminate].
  intros _. apply andb_true_iff in E. destruct E as [A B].
  apply Z.leb_le in A. apply Z.leb_le in B. split; auto.
Qed.

Lemma decimal_val : forall ds m, decimal ds m ->
  ds <> [] /\ Forall isdig ds /\ m = val 0 ds.
Proof.
  induction 1 as [c H|s n c H (A & B & C) D].
  - repeat split; [discriminate|repeat constructor; apply H].
  - repeat split.
    + destruct s; discriminate.
    + apply Forall_app. split; auto; try (constructor; [exact D|constructor]).
    + unfold val in *. rewrite fold_left_app. cbn [fold_left]. rewrite <- C.
      reflexivity.
Qed.

Lemma val_decimal : forall ds, ds <> [] -> Forall isdig ds ->
  decimal ds (val 0 ds).
Proof.
  induction ds as [|c ds IH] using rev_ind; intros N F; [contradiction|].
  apply Forall_app in F. destruct F as [F G]. apply Forall_inv in G.
  destruct ds as [|x ds].
  - cbn. unfold val, code. cbn. apply dec_one. exact G.
  - unfold val. rewrite fold_left_app. cbn [fold_left].
    apply dec_more; [|exact G]. apply IH; auto. discriminate.
Qed.

Definition no_digit (r : str) : Prop :=
  match r with [] => True | c :: _ => ~ isdig c end.

Lemma digits_app : forall ds r acc, Forall isdig ds -> no_digit r ->
  digits (ds ++ r) acc = (val acc ds, r).
Proof.
  induction ds as [|c ds IH]; intros r acc F N.
  - cbn. destruct r as [|c r]; auto. cbn.
    destruct (digit c) eqn:E; auto. exfalso. apply N. eapply digit_dec; eauto.
  - apply Forall_cons_iff in F. destruct F as [F G]. cbn [app digits].
    rewrite (digit_some c F). rewrite IH; auto.
Qed.

Lemma digits_split : forall s, exists ds r,
  s = ds ++ r /\ Forall isdig ds /\ no_digit r.
Proof.
  induction s as [|c s (ds & r & A & B & C)].
  - exists [], []. repeat split; auto.
  - destruct (digit c) eqn:E.
    + exists (c :: ds), r. subst s. repeat split; auto. constructor; auto.
      eapply digit_dec; eauto.
    + exists [], (c :: s). repeat split; auto. cbn. apply digit_none. exact E.
Qed.

Lemma is_space_iff : forall c,
  is_space c = true <-> In (nat_of_ascii c) [32; 9; 10; 11; 12; 13]%nat.
Proof.
  intros c. unfold is_space. cbv zeta.
  rewrite orb_true_iff, andb_true_iff, Nat.eqb_eq, !Nat.leb_le. cbn [In]. lia.
Qed.

Lemma skip_space_split : forall s, exists ws,
  s = ws ++ skip_space s /\
  (forall c, In c ws -> In (nat_of_ascii c) [32; 9; 10; 11; 12; 13]%nat).
Proof.
  induction s as [|c s (ws & A & B)].
  - exists []. split; auto. intros c [].
  - cbn [skip_space]. destruct (is_space c) eqn:E.
    + exists (c :: ws). split; [cbn; congruence|].
      intros x [<-|H]; auto. apply is_space_iff. exact E.
    + exists []. split; auto. intros x [].
Qed.

Lemma skip_space_app : forall ws r,
  (forall c, In c ws -> In (nat_of_ascii c) [32; 9; 10; 11; 12; 13]%nat) ->
  match r with [] => True | c :: _ => is_space c = false end ->
  skip_space (ws ++ r) = r.
Proof.
  induction ws as [|c ws IH]; intros r H N.
  - destruct r as [|c r]; auto. cbn. rewrite N. reflexivity.
  - cbn. assert (E : is_space c = true)
      by (apply is_space_iff; apply H; left; reflexivity).
    rewrite E. apply IH; auto. intros x F. apply H. right. exact F.
Qed.

Lemma dig_not_space : forall c, isdig c -> is_space c = false.
Proof.
  intros c H. destruct (is_space c) eqn:E; auto. apply is_space_iff in E.
  unfold isdig, code in H. cbn [In] in E. lia.
Qed.

Lemma dig_not : forall c x, isdig c -> code x < 48 -> Ascii.eqb c x = false.
Proof.
  intros c x H L. apply Ascii.eqb_neq. intros ->. unfold isdig in H. lia.
Qed.

Lemma strtol_number : forall ws sg ds (neg : bool),
  (forall c, In c ws -> In (nat_of_ascii c) [32; 9; 10; 11; 12; 13]%nat) ->
  (sg = [] /\ neg = false \/ sg = text "+" /\ neg = false \/
   sg = text "-" /\ neg = true) ->
  ds <> [] -> Forall isdig ds ->
  let m := if neg then - val 0 ds else val 0 ds in
  long_min <= m <= long_max ->
  strtol (ws ++ sg ++ ds) = (m, [], false).
Proof.
  intros ws sg ds neg W S N F m R. unfold strtol.
  destruct ds as [|c ds]; [contradiction|].
  pose proof (Forall_inv F) as Fc.
  rewrite skip_space_app; auto.
  2:{ destruct S as [[-> _]|[[-> _]|[-> _]]]; try reflexivity. cbn.
      apply dig_not_space. exact Fc. }
  assert (SG : sign (sg ++ c :: ds) = (neg, c :: ds)).
  { destruct S as [[-> ->]|[[-> ->]|[-> ->]]]; try reflexivity.
    cbn [app sign]. rewrite !dig_not; auto; reflexivity. }
  rewrite SG, (digit_some c Fc).
  replace (digits (c :: ds) 0) with (val 0 (c :: ds), @nil ascii).
  2:{ rewrite <- (app_nil_r (c :: ds)) at 2. symmetry. apply digits_app; auto.
      exact I. }
  fold m. destruct R as [R1 R2].
  destruct (long_max <? m) eqn:Q1; [apply Z.ltb_lt in Q1; lia|].
  destruct (m <? long_min) eqn:Q2; [apply Z.ltb_lt in Q2; lia|]. reflexivity.
Qed.

Lemma int_complete : forall s n, number s n -> long_min <= n <= long_max ->
  CLStateGetIntArg s = Ok n.
Proof.
  intros s n (ws & sg & ds & m & -> & W & D & S) R.
  apply decimal_val in D. destruct D as (N & F & V).
  unfold CLStateGetIntArg.
  assert (X : exists neg : bool, n = (if neg then - val 0 ds else val 0 ds) /\
    (sg = [] /\ neg = false \/ sg = text "+" /\ neg = false \/
     sg = text "-" /\ neg = true)).
  { destruct S as [[A ->]|[[A ->]|[A ->]]]; [exists false|exists false|exists true];
      subst m; auto. }
  destruct X as (neg & X & Y). subst n.
  rewrite (strtol_number ws sg ds neg W Y N F R). reflexivity.
Qed.

Lemma sign_split : forall s neg r, sign s = (neg, r) ->
  exists sg, s = sg ++ r /\
  (sg = [] /\ neg = false \/ sg = text "+" /\ neg = false \/
   sg = text "-" /\ neg = true).
Proof.
  intros s neg r H. unfold sign in H. destruct s as [|c s].
  - injection H as <- <-. exists []. auto.
  - destruct (Ascii.eqb c dash) eqn:A.
    + apply Ascii.eqb_eq in A. subst c. injection H as <- <-.
      exists (text "-"). split; auto.
    + destruct (Ascii.eqb c "+"%char) eqn:B.
      * apply Ascii.eqb_eq in B. subst c. injection H as <- <-.
        exists (text "+"). split; auto.
      * injection H as <- <-. exists []. auto.
Qed.

Lemma int_sound : forall s n, CLStateGetIntArg s = Ok n ->
  s = [] /\ n = 0 \/ number s n /\ long_min <= n <= long_max.
Proof.
  intros s n. unfold CLStateGetIntArg, strtol.
  destruct (skip_space_split s) as (ws & E & W).
  destruct (sign (skip_space s)) as [neg r] eqn:SG.
  apply sign_split in SG. destruct SG as (sg & SE & SS).
  assert (triv : forall m, (if false : bool then Usage
     else match s with [] => Ok m | _ :: _ => Usage end) = Ok n -> m = 0 ->
     s = [] /\ n = 0).
  { intros m H Hm. destruct s; [|discriminate]. injection H as <-. auto. }
  destruct r as [|c r]; [intros H; left; eapply triv; eauto|].
  destruct (digit c) eqn:D; [|intros H; left; eapply triv; eauto].
  destruct (digits_split (c :: r)) as (ds & r' & A & B & C).
  rewrite A. rewrite digits_app; auto. clear triv.
  destruct (long_max <? (if neg then - val 0 ds else val 0 ds)) eqn:Q1;
    [discriminate|].
  destruct ((if neg then - val 0 ds else val 0 ds) <? long_min) eqn:Q2;
    [discriminate|].
  destruct r'; [|discriminate]. intros H. injection H as <-. right.
  apply Z.ltb_ge in Q1. apply Z.ltb_ge in Q2. split; [|lia].
  rewrite app_nil_r in A. subst ds.
  exists ws, sg, (c :: r), (val 0 (c :: r)).
  split; [rewrite <- SE; exact E|]. split; [exact W|].
  split; [apply val_decimal; auto; discriminate|].
  destruct SS as [[X ->]|[[X ->]|[X ->]]]; auto.
Qed.

Lemma int_total : forall s, CLStateGetIntArg s = Usage \/
  exists n, CLStateGetIntArg s = Ok n.
Proof.
  intros s. unfold CLStateGetIntArg. destruct (strtol s) as [[n r] []]; auto.
  destruct r; eauto.
Qed.

(* ------------------------------------------------------------------ *)
(** * Layout *)

Lemma find_blank_cases : forall s len i blank, (i <= len)%nat ->
  exists i' p' b', find_blank s len i i blank = (i', p', b') /\
  ( ((i' < len)%nat /\ i' = (i + length s)%nat /\ ~ In nl s)
  \/ (exists l r, s = l ++ nl :: r /\ ~ In nl l /\ (i + length l < len)%nat /\
        i' = len /\ b' = Some (i + length l)%nat)
  \/ (exists l r, s = l ++ r /\ (i + length l)%nat = len /\ ~ In nl l /\
        i' = len /\ p' = len /\
        ((exists l1 l2, l = l1 ++ sp :: l2 /\ ~ In sp l2 /\
            b' = Some (i + length l1)%nat)
         \/ (~ In sp l /\ b' = blank)))).
Proof.
  induction s as [|c s IH]; intros len i blank L.
  - cbn [find_blank]. do 3 eexists. split; [reflexivity|].
    destruct (Nat.eq_dec i len) as [->|N].
    + right. right. exists [], []. cbn. repeat split; auto.
    + left. cbn. repeat split; auto; lia.
  - cbn [find_blank]. destruct (Nat.ltb i len) eqn:B.
    2:{ apply Nat.ltb_ge in B. do 3 eexists. split; [reflexivity|].
        right. right. exists [], (c :: s). cbn. repeat split; auto; lia. }
    apply Nat.ltb_lt in B.
    destruct (Ascii.eqb c sp) eqn:Q.
    { apply Ascii.eqb_eq in Q. subst c.
      destruct (IH len (S i) (Some i) ltac:(lia)) as (i' & p' & b' & E & H).
      exists i', p', b'. split; [exact E|].
      destruct H as [(A1 & A2 & A3)|[(l & r & A1 & A2 & A3 & A4 & A5)
        |(l & r & A1 & A2 & A3 & A4 & A5 & A6)]].
      - left. cbn [length]. repeat split; auto; try lia.
        intros [H|H]; [discriminate|auto].
      - right. left. exists (sp :: l), r. subst s. cbn [length app].
        repeat split; auto; try lia.
        + intros [H|H]; [discriminate|auto].
        + rewrite A5. f_equal. lia.
      - right. right. exists (sp :: l), r. subst s. cbn [length app].
        repeat split; auto; try lia.
        { intros [H|H]; [discriminate|auto]. }
        left. destruct A6 as [(l1 & l2 & B1 & B2 & B3)|(B1 & B2)].
        + exists (sp :: l1), l2. subst l. cbn [length app].
          repeat split; auto. rewrite B3. f_equal. lia.
        + exists [], l. cbn. repeat split; auto. rewrite B2. f_equal. lia. }
    destruct (Ascii.eqb c nl) eqn:Q2.
    { apply Ascii.eqb_eq in Q2. subst c. do 3 eexists. split; [reflexivity|].
      right. left. exists [], s. cbn. rewrite Nat.add_0_r.
      repeat split; auto; try lia. }
    apply Ascii.eqb_neq in Q. apply Ascii.eqb_neq in Q2.
    destruct (IH len (S i) blank ltac:(lia)) as (i' & p' & b' & E & H).
    exists i', p', b'. split; [exact E|].
    destruct H as [(A1 & A2 & A3)|[(l & r & A1 & A2 & A3 & A4 & A5)
      |(l & r & A1 & A2 & A3 & A4 & A5 & A6)]].
    + left. cbn [length]. repeat split; auto; try lia.
      intros [H|H]; [congruence|auto].
    + right. left. exists (c :: l), r. subst s. cbn [length app].
      repeat split; auto; try lia.
      * intros [H|H]; [congruence|auto].
      * rewrite A5. f_equal. lia.
    + right. right. exists (c :: l), r. subst s. cbn [length app].
      repeat split; auto; try lia.
      { intros [H|H]; [congruence|auto]. }
      destruct A6 as [(l1 & l2 & B1 & B2 & B3)|(B1 & B2)].
      * left. exists (c :: l1), l2. subst l. cbn [length app].
        repeat split; auto. rewrite B3. f_equal. lia.
      * right. split; auto. intros [H|H]; [congruence|auto].
Qed.

Lemma firstn_here : forall (l r : str), firstn (length l) (l ++ r) = l.
Proof.
  intros l r. rewrite firstn_app, firstn_all, Nat.sub_diag. cbn.
  apply app_nil_r.
Qed.

Lemma skipn_past : forall (l : str) x r, skipn (S (length l)) (l ++ x :: r) = r.
Proof. induction l as [|y l IH]; intros x r; [reflexivity|]. cbn. apply IH. Qed.

Lemma skipn_here : forall (l r : str), skipn (length l) (l ++ r) = r.
Proof. induction l as [|y l IH]; intros r; [reflexivity|]. cbn. apply IH. Qed.

Lemma print_desc_ok : forall fuel s w, (0 < w)%nat -> (length s < fuel)%nat ->
  exists ls, print_desc fuel s w = Ok ls /\ laid_out w s ls.
Proof.
  induction fuel as [|n IH]; intros s w W L; [lia|].
  cbn [print_desc]. unfold print_start_of_str.
  destruct (find_blank_cases s w 0 None ltac:(lia)) as (i' & p' & b' & E & H).
  rewrite E.
  destruct H as [(A1 & A2 & A3)|[(l & r & A1 & A2 & A3 & A4 & A5)
    |(l & r & A1 & A2 & A3 & A4 & A5 & [(l1 & l2 & B1 & B2 & B3)|(B1 & B2)])]].
  - apply Nat.ltb_lt in A1. rewrite A1. apply Nat.ltb_lt in A1.
    exists [s]. split; auto. apply lo_last; auto. lia.
  - subst i' b'. cbn [Nat.add] in *. rewrite Nat.ltb_irrefl. subst s.
    rewrite firstn_here, skipn_past. destruct r as [|x r].
    + eexists. split; [reflexivity|]. apply lo_newline_end; auto.
    + destruct (IH (x :: r) w W) as (ls & F & G).
      { rewrite app_length in L. cbn [length] in *. lia. }
      rewrite F. eexists. split; [reflexivity|].
      apply lo_newline; auto. discriminate.
  - subst i' b'. cbn [Nat.add] in *. rewrite Nat.ltb_irrefl. subst l s.
    rewrite <- app_assoc. cbn [app]. rewrite firstn_here, skipn_past.
    destruct (l2 ++ r) as [|x q] eqn:Q.
    + apply app_eq_nil in Q. destruct Q as [-> ->].
      eexists. split; [reflexivity|]. apply lo_blank_end; auto.
      intros H. apply A3. apply in_or_app. left. exact H.
    + destruct (IH (l2 ++ r) w W) as (ls & F & G).
      { rewrite !app_length in *. cbn [length] in *. lia. }
      rewrite Q in F. rewrite F. eexists. split; [reflexivity|].
      rewrite <- Q. apply lo_blank; auto. rewrite Q. discriminate.
  - subst i' b' p'. cbn [Nat.add] in *. rewrite Nat.ltb_irrefl. subst s w.
    rewrite firstn_here, skipn_here.
    destruct (IH r (length l) W) as (ls & F & G).
    { rewrite app_length in L. lia. }
    rewrite F. eexists. split; [reflexivity|]. apply lo_hard; auto.
Qed.

Lemma laid_out_lines : forall w s ls, laid_out w s ls ->
  Forall (fun l => (length l <= w)%nat /\ ~ In nl l) ls.
Proof.
  assert (pre : forall (l r : str), ~ In nl (l ++ r) -> ~ In nl l).
  { intros l r H F. apply H. apply in_or_app. left. exact F. }
  induction 1; repeat apply Forall_cons; try apply Forall_nil; auto;
    try (split; auto; lia).
  - split; [rewrite app_length in H; lia|]. eapply pre; eauto.
  - split; [rewrite app_length in H; lia|]. auto.
Qed.
