(** * C45: numerals, C46: quoted strings *)
From Coq Require Import String Ascii List ZArith QArith Qabs Lia Bool Arith.
From Verif Require Import Sig SigProofs Num NumProofs.
Import ListNotations.
Local Open Scope nat_scope.
Local Open Scope list_scope.

(** ** C45: integers *)
Theorem C45_integers : forall a b, numeral_ok a -> numeral_ok b -> (normalize_int (text a) = normalize_int (text b) <-> value a = value b).
Proof. exact int_iff. Qed.
Example C45_integers_case : normalize_int "-0042" = "-42"%string /\ normalize_int "+0" = "0"%string /\ normalize_int "-00" = "0"%string /\
  let a := {| nsign := Some true; nds := [0; 0; 4; 2] |} in numeral_ok a /\ text a = "-0042"%string /\ value a = (-42)%Z.
Proof. split; [reflexivity|]. split; [reflexivity|]. split; [reflexivity|]. split; [|split; reflexivity]. split; [discriminate|]. repeat constructor. Qed.

(** ** C45: rationals whose parts are in the range of long; missing: the others, see the refuted theorems *)
Theorem C45_rationals_partial : forall a b c d, numeral_ok a -> numeral_ok b -> numeral_ok c -> numeral_ok d ->
  in_range (value a) -> in_range (value b) -> in_range (value c) -> in_range (value d) -> value b <> 0%Z -> value d <> 0%Z ->
  (normalize_rational (ratio_text a b) = normalize_rational (ratio_text c d) <-> (value a * value d = value c * value b)%Z) /\
  exists s, normalize_rational (ratio_text a b) = Norm s.
Proof.
  intros. split; [now apply rational_iff|]. rewrite rational_text by auto. eexists; reflexivity.
Qed.
Example C45_rationals_case : normalize_rational "6/-4" = Norm "-3/2" /\ normalize_rational "-09/+6" = Norm "-3/2" /\ normalize_rational "0/-5" = Norm "0/1" /\
  normalize_rational "9223372036854775807/7" = Norm "1317624576693539401/1".
Proof. repeat split; vm_compute; reflexivity. Qed.
(** the greatest common divisor, for all non-negative arguments *)
Theorem C45_gcd : forall a b, (0 <= a)%Z -> (0 <= b)%Z -> compute_gcd a b = Some (Z.gcd a b).
Proof. exact compute_gcd_spec. Qed.

Definition num (s : bool) (l : list nat) : numeral := {| nsign := if s then Some true else None; nds := l |}.
(** two different rationals become the same constant *)
Theorem C45_rationals_refuted : exists a b c d, numeral_ok a /\ numeral_ok b /\ numeral_ok c /\ numeral_ok d /\ value b <> 0%Z /\ value d <> 0%Z /\
  (value a * value d <> value c * value b)%Z /\ exists s, normalize_rational (ratio_text a b) = Norm s /\ normalize_rational (ratio_text c d) = Norm s.
Proof.
  exists (num false [9;2;2;3;3;7;2;0;3;6;8;5;4;7;7;5;8;0;7]), (num false [1]), (num false [9;2;2;3;3;7;2;0;3;6;8;5;4;7;7;5;8;0;8]), (num false [1]).
  repeat split; try discriminate; try (repeat constructor). eexists; split; vm_compute; reflexivity.
Qed.
(** signed overflow *)
Theorem C45_rationals_overflow_refuted : exists a b, numeral_ok a /\ numeral_ok b /\ value b = 1%Z /\ normalize_rational (ratio_text a b) = Overflow.
Proof.
  exists (num true [9;2;2;3;3;7;2;0;3;6;8;5;4;7;7;5;8;0;8]), (num false [1]).
  repeat split; try discriminate; try (repeat constructor).
Qed.
(** reals: for every conversion of text to doubles that is accurate up to a factor of 2 and every rounding of "%f", 0.0000001 and
    0.0000002 become the same constant, and so they are equal; and 0.0 and -0.0 become different constants, and so they are different *)
Theorem C45_reals_refuted : forall (strtod : Q -> dbl),
  (forall q, (0 < q)%Q -> dneg (strtod q) = false /\ (q * (1 # 2) <= dmag (strtod q) <= q * (2 # 1))%Q) ->
  forall r1 r2, prints_as (strtod (1 # 10000000)) r1 -> prints_as (strtod (2 # 10000000)) r2 ->
  normalize_float (strtod (1 # 10000000)) r1 = normalize_float (strtod (2 # 10000000)) r2 /\
  forall r3 r4, prints_as {| dneg := false; dmag := 0 |} r3 -> prints_as {| dneg := true; dmag := 0 |} r4 ->
  normalize_float {| dneg := false; dmag := 0 |} r3 <> normalize_float {| dneg := true; dmag := 0 |} r4.
Proof.
  intros strtod ACC r1 r2 H1 H2.
  assert (R : forall q r, (0 < q)%Q -> (q <= 2 # 10000000)%Q -> prints_as (strtod q) r -> r = 0%Z).
  { intros q r Q0 Q1 P. destruct (ACC q Q0) as (_ & L & U). unfold prints_as in P. apply Qabs_Qle_condition in P. destruct P as (P1 & P2).
    assert (B : (dmag (strtod q) <= 4 # 10000000)%Q) by (eapply Qle_trans; [exact U|]; unfold Qle in *; cbn in *; lia).
    assert (B0 : (0 <= dmag (strtod q))%Q) by (eapply Qle_trans; [|exact L]; unfold Qle, Qlt in *; cbn in *; lia).
    destruct (dmag (strtod q)) as [n d]. unfold Qle, Qlt, Qminus, Qplus, Qopp, Qmult, inject_Z in *. cbn in *. nia. }
  assert (P1 : (0 < 1 # 10000000)%Q) by reflexivity. assert (P2 : (0 < 2 # 10000000)%Q) by reflexivity.
  assert (R1 : r1 = 0%Z) by (apply (R (1 # 10000000)%Q); [exact P1|unfold Qle; cbn; lia|exact H1]).
  assert (R2 : r2 = 0%Z) by (apply (R (2 # 10000000)%Q); [exact P2|unfold Qle; cbn; lia|exact H2]). subst. split.
  - unfold normalize_float. destruct (ACC _ P1) as (-> & _). destruct (ACC _ P2) as (-> & _). reflexivity.
  - intros r3 r4 H3 H4.
    assert (Z0 : forall b r, prints_as {| dneg := b; dmag := 0 |} r -> r = 0%Z).
    { intros b r P. unfold prints_as in P. cbn in P. unfold Qle in P. cbn in P. lia. }
    rewrite (Z0 _ _ H3), (Z0 _ _ H4). discriminate.
Qed.
(** an exact conversion meets the hypotheses *)
Example C45_reals_case : let strtod := fun q => {| dneg := false; dmag := q |} in
  (forall q, (0 < q)%Q -> dneg (strtod q) = false /\ (q * (1 # 2) <= dmag (strtod q) <= q * (2 # 1))%Q) /\
  prints_as (strtod (1 # 10000000)) 0 /\ prints_as (strtod (2 # 10000000)) 0 /\ normalize_float (strtod (1 # 10000000)) 0 = "0.000000"%string.
Proof.
  cbn. split; [|split; [|split; [|reflexivity]]].
  - intros [n d] P. split; [reflexivity|]. unfold Qle, Qlt in *; cbn in *. lia.
  - unfold prints_as; cbn. unfold Qle; cbn. lia.
  - unfold prints_as; cbn. unfold Qle; cbn. lia.
Qed.

(** ** C46: quoted strings.  The token ends at the right delimiter, and it is the text if there are no escapes *)
Theorem C46_tokens : forall delim l rest, delim <> backslash -> Forall (item_ok delim) l ->
  exists tok, scan_string (string_text delim l ++ rest) = Some (tok, rest) /\
    ((forall c, ~ In (Escaped c) l) -> tok = string_text delim l).
Proof.
  intros delim l rest ND O. unfold string_text. cbn [append scan_string].
  rewrite append_assoc. cbn [append]. rewrite scan_items by auto. eexists. split; [reflexivity|].
  intro NE. cbn [append]. do 2 f_equal. clear - NE. induction l as [|i l IH]; [reflexivity|]. cbn [map items_text]. rewrite IH by (intros c I; apply (NE c); now right).
  destruct i as [c|c]; [reflexivity|]. exfalso. apply (NE c). now left.
Qed.
Lemma items_inj : forall delim l k, Forall (item_ok delim) l -> Forall (item_ok delim) k ->
  (items_text l ++ String delim EmptyString = items_text k ++ String delim EmptyString)%string -> delim <> backslash -> l = k.
Proof.
  intros delim. induction l as [|i l IH]; intros [|j k] L K H ND; [reflexivity| | |].
  - exfalso. inversion K; subst. cbn in H. destruct j as [c|c]; cbn in H, H2; injection H as H _; [destruct H2 as (_ & X & _); congruence|congruence].
  - exfalso. inversion L; subst. cbn in H. destruct i as [c|c]; cbn in H, H2; injection H as H _; [destruct H2 as (_ & X & _); congruence|congruence].
  - inversion L; subst. inversion K; subst. cbn [items_text] in H. rewrite !append_assoc in H. destruct i as [c|c], j as [d|d]; cbn [item_text append] in H; cbn in H2, H4.
    + injection H as -> H. f_equal. now apply IH.
    + injection H as H _. destruct H2 as (_ & _ & X). congruence.
    + injection H as H _. destruct H4 as (_ & _ & X). congruence.
    + injection H as -> H. f_equal. now apply IH.
Qed.
(** different strings are different tokens; missing: strings with escapes *)
Theorem C46_distinct_partial : forall delim l k r r' tok, delim <> backslash -> Forall (item_ok delim) l -> Forall (item_ok delim) k ->
  (forall c, ~ In (Escaped c) l) -> (forall c, ~ In (Escaped c) k) ->
  scan_string (string_text delim l ++ r) = Some (tok, r) -> scan_string (string_text delim k ++ r') = Some (tok, r') -> l = k.
Proof.
  intros delim l k r r' tok ND L K NL NK H H'. destruct (C46_tokens delim l r ND L) as (t & T & E). destruct (C46_tokens delim k r' ND K) as (t' & T' & E').
  rewrite T in H. rewrite T' in H'. injection H as <-. injection H' as <-. rewrite (E NL) in E'. specialize (E' NK). unfold string_text in E'. injection E' as E'.
  eapply items_inj; eauto.
Qed.
Example C46_case : item_ok "'" (Plain "a") /\ item_ok "'" (Escaped "'") /\ 
  scan_string (string_text "'" [Plain "a"; Plain " "; Plain "B"]%char ++ ", c)") = Some ("'a B'", ", c)")%string /\
  scan_string (string_text "'" [Plain "a"; Escaped "\"; Plain "B"]%char ++ ", c)") = Some ("'a\\B'", ", c)")%string.
Proof.
  split; [split; [now left|split; discriminate]|]. split; [now left|]. split; reflexivity.
Qed.
(** the character after a backslash is lost: two different atoms become one *)
Theorem C46_escape_refuted : exists l k tok, Forall (item_ok "'") l /\ Forall (item_ok "'") k /\ l <> k /\
  scan_string (string_text "'" l) = Some (tok, EmptyString) /\ scan_string (string_text "'" k) = Some (tok, EmptyString).
Proof.
  exists [Plain "a"; Escaped "'"; Plain "b"]%char, [Plain "a"; Escaped "\"; Plain "b"]%char. eexists. repeat split; try reflexivity.
  - constructor; [split; [now left|split; discriminate]|]. constructor; [now left|]. constructor; [split; [now left|split; discriminate]|constructor].
  - constructor; [split; [now left|split; discriminate]|]. constructor; [now right|]. constructor; [split; [now left|split; discriminate]|constructor].
  - discriminate.
Qed.

Print Assumptions C45_integers.
Print Assumptions C45_rationals_partial.
Print Assumptions C45_gcd.
Print Assumptions C45_rationals_refuted.
Print Assumptions C45_rationals_overflow_refuted.
Print Assumptions C45_reals_refuted.
Print Assumptions C46_tokens.
Print Assumptions C46_distinct_partial.
Print Assumptions C46_escape_refuted.
