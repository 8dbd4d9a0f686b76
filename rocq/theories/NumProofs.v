(** * Proofs about numerals and string tokens *)
From Coq Require Import String Ascii List ZArith Znumtheory QArith Qabs Lia Bool Arith DecimalZ.
From Verif Require Import Sig SigProofs Num.
Import ListNotations.
Local Open Scope nat_scope.
Local Open Scope list_scope.

(** ** Digits *)
Lemma chr_0 : chr 0 = "0"%char.
Proof. reflexivity. Qed.
Lemma str_0 : string_of_list_ascii (map chr [0]) = "0"%string.
Proof. reflexivity. Qed.
Lemma chr_nat : forall d, d < 10 -> nat_of_ascii (chr d) = 48 + d.
Proof. intros d D. unfold chr. apply nat_ascii_embedding. lia. Qed.
Opaque chr.
Lemma chr_isdigit : forall d, d < 10 -> isdigit (chr d) = true.
Proof. intros d D. unfold isdigit. rewrite chr_nat by auto. destruct (Nat.leb_spec 48 (48 + d)), (Nat.leb_spec (48 + d) 57); auto; lia. Qed.
Lemma chr_val : forall d, d < 10 -> digit_val (chr d) = Z.of_nat d.
Proof. intros d D. unfold digit_val. rewrite chr_nat by auto. f_equal. lia. Qed.
Lemma chr_inj : forall d e, d < 10 -> e < 10 -> chr d = chr e -> d = e.
Proof. intros d e D E H. apply (f_equal nat_of_ascii) in H. rewrite !chr_nat in H by auto. lia. Qed.
Lemma chr_neq : forall d c, d < 10 -> nat_of_ascii c < 48 \/ 57 < nat_of_ascii c -> Ascii.eqb (chr d) c = false.
Proof. intros d c D H. destruct (Ascii.eqb_spec (chr d) c); [|reflexivity]. subst. rewrite chr_nat in H by auto. lia. Qed.
Definition str (l : list nat) : string := string_of_list_ascii (map chr l).
Lemma str_inj : forall l k, Forall (fun d => d < 10) l -> Forall (fun d => d < 10) k -> str l = str k -> l = k.
Proof.
  induction l as [|d l IH]; intros [|e k] L K H; try discriminate; [reflexivity|]. inversion L; subst. inversion K; subst. unfold str in H; cbn in H. injection H as H0 H.
  f_equal; [now apply chr_inj|]. now apply IH.
Qed.
Fixpoint strip (l : list nat) : list nat := match l with 0 :: l' => strip l' | _ => l end.
Lemma skip_str : forall l, Forall (fun d => d < 10) l -> skip_zeros (str l) = str (strip l).
Proof.
  induction l as [|d l IH]; intro L; [reflexivity|]. inversion L; subst. unfold str. cbn [map string_of_list_ascii skip_zeros]. destruct d as [|d].
  - rewrite chr_0, Ascii.eqb_refl. apply IH; auto.
  - destruct (Ascii.eqb_spec (chr (S d)) "0"); [|reflexivity]. exfalso. rewrite <- chr_0 in e. apply chr_inj in e; [discriminate|auto|lia].
Qed.
Lemma strip_digits : forall l, Forall (fun d => d < 10) l -> Forall (fun d => d < 10) (strip l).
Proof. induction l as [|[|d] l IH]; intro L; cbn; auto. inversion L; auto. Qed.
Lemma take_sign_digit : forall d l, d < 10 -> take_sign (str (d :: l)) = (EmptyString, str (d :: l)).
Proof. intros d l D. unfold str; cbn. rewrite !chr_neq; auto; cbn; lia. Qed.
Lemma take_sign_text : forall a rest, numeral_ok a ->
  take_sign (text a ++ rest) = ((match nsign a with Some true => "-" | _ => "" end)%string, (str (nds a) ++ rest)%string).
Proof.
  intros [sg l] rest (N & D); cbn in *. unfold text; cbn. destruct l as [|d l]; [congruence|]. inversion D; subst.
  destruct sg as [[|]|]; [reflexivity|reflexivity|]. unfold str; cbn. rewrite !chr_neq; auto; cbn; lia.
Qed.
Lemma append_nil : forall s, (s ++ "")%string = s.
Proof. induction s; cbn; congruence. Qed.

(** values *)
Definition val_from (v : Z) (l : list nat) : Z := fold_left (fun v d => (10 * v + Z.of_nat d)%Z) l v.
Lemma val_strip : forall l, value_digits (strip l) = value_digits l.
Proof. induction l as [|[|d] l IH]; cbn; auto. Qed.
Lemma val_snoc : forall l d, value_digits (l ++ [d]) = (10 * value_digits l + Z.of_nat d)%Z.
Proof. intros l d. unfold value_digits. now rewrite fold_left_app. Qed.
Lemma val_nonneg : forall l, (0 <= value_digits l)%Z.
Proof. induction l as [|d l IH] using rev_ind; [unfold value_digits; cbn; lia|]. rewrite val_snoc. lia. Qed.
Definition lead (l : list nat) : Prop := match l with 0 :: _ => False | _ => True end.
Lemma lead_strip : forall l, lead (strip l).
Proof. induction l as [|[|d] l IH]; cbn; auto. Qed.
Lemma val_pos : forall l, lead l -> l <> [] -> (0 < value_digits l)%Z.
Proof.
  induction l as [|d l IH] using rev_ind; intros L N; [congruence|]. rewrite val_snoc. destruct l as [|e l].
  - cbn in *. destruct d; [contradiction|]. lia.
  - assert (0 < value_digits (e :: l))%Z by (apply IH; [exact L|discriminate]). lia.
Qed.
Lemma val_inj : forall l k, lead l -> lead k -> Forall (fun d => d < 10) l -> Forall (fun d => d < 10) k -> value_digits l = value_digits k -> l = k.
Proof.
  induction l as [|d l IH] using rev_ind; intros k L K DL DK H.
  - destruct k; [reflexivity|]. apply val_pos in K; [|discriminate]. rewrite <- H in K. cbn in K. lia.
  - destruct k as [|e k _] using rev_ind.
    + assert (0 < value_digits (l ++ [d]))%Z by (apply val_pos; [auto|now destruct l]). rewrite H in H0. cbn in H0; lia.
    + rewrite !val_snoc in H. apply Forall_app in DL, DK. destruct DL as (DL & D1). destruct DK as (DK & D2). inversion D1; subst. inversion D2; subst.
      assert (d = e /\ value_digits l = value_digits k) by lia. destruct H0 as (-> & V). f_equal. apply IH; auto.
      * destruct l as [|[|]]; cbn in *; auto.
      * destruct k as [|[|]]; cbn in *; auto.
Qed.

(** ** Integers *)
Definition sgn (a : numeral) : bool := match nsign a with Some true => true | _ => false end.
Lemma value_sgn : forall a, value a = if sgn a then (- value_digits (nds a))%Z else value_digits (nds a).
Proof. intros [[[|]|] l]; reflexivity. Qed.
Lemma normalize_text : forall a, numeral_ok a ->
  normalize_int (text a) = match strip (nds a) with [] => "0"%string | l => ((if sgn a then "-" else "") ++ str l)%string end.
Proof.
  intros a O. unfold normalize_int. assert (T := take_sign_text a EmptyString O). rewrite !append_nil in T. rewrite T. rewrite skip_str by apply O.
  unfold sgn. destruct (strip (nds a)) as [|d l]; [reflexivity|]. unfold str. cbn. destruct (nsign a) as [[|]|]; reflexivity.
Qed.
Lemma str_head : forall l s, Forall (fun d => d < 10) l -> str l <> String "-" s.
Proof. intros [|d l] s D H; [discriminate|]. inversion D; subst. unfold str in H; cbn in H. injection H as H _. apply (f_equal nat_of_ascii) in H. rewrite chr_nat in H by auto. cbn in H. lia. Qed.
Lemma tail_eq : forall c s t, String c s = String c t -> s = t.
Proof. intros c s t H. congruence. Qed.
Lemma int_iff : forall a b, numeral_ok a -> numeral_ok b -> (normalize_int (text a) = normalize_int (text b) <-> value a = value b).
Proof.
  intros a b A B. rewrite !normalize_text, !value_sgn by auto.
  assert (DA := strip_digits _ (proj2 A)). assert (DB := strip_digits _ (proj2 B)).
  assert (LA := lead_strip (nds a)). assert (LB := lead_strip (nds b)).
  rewrite <- (val_strip (nds a)), <- (val_strip (nds b)).
  set (l := strip (nds a)) in *. set (k := strip (nds b)) in *. clearbody l k. clear A B.
  assert (Z0 : forall x, lead x -> Forall (fun d => d < 10) x -> str x = "0"%string -> False).
  { intros x LX DX E. rewrite <- str_0 in E. apply (str_inj x [0]) in E; [subst; exact LX|auto|repeat constructor]. }
  destruct l as [|d l], k as [|e k].
  - cbn. split; [intros _; now destruct (sgn a), (sgn b)|auto].
  - assert (P := val_pos _ LB ltac:(discriminate)). split.
    + intro H. destruct (sgn b).
      * discriminate.
      * cbn [append] in H. symmetry in H. now apply Z0 in H.
    + intro H. exfalso. change (value_digits []) with 0%Z in H. destruct (sgn a), (sgn b); lia.
  - assert (P := val_pos _ LA ltac:(discriminate)). split.
    + intro H. destruct (sgn a).
      * discriminate.
      * cbn [append] in H. now apply Z0 in H.
    + intro H. exfalso. change (value_digits []) with 0%Z in H. destruct (sgn a), (sgn b); lia.
  - assert (P := val_pos _ LA ltac:(discriminate)). assert (P' := val_pos _ LB ltac:(discriminate)). split.
    + intro H. destruct (sgn a), (sgn b); cbn [append] in H.
      * apply tail_eq, str_inj in H; auto. now rewrite H.
      * symmetry in H. now apply str_head in H.
      * now apply str_head in H.
      * apply str_inj in H; auto. now rewrite H.
    + intro H. destruct (sgn a), (sgn b); try lia; f_equal; f_equal; apply val_inj; auto; lia.
Qed.

(** ** Greatest common divisor *)
Lemma gcd_loop_spec : forall fuel a b, (0 <= a)%Z -> (0 <= b)%Z -> (Z.log2 a + Z.log2 b + 2 < Z.of_nat fuel)%Z -> gcd_loop fuel a b = Some (Z.gcd a b).
Proof.
  induction fuel as [|m IH]; intros a b A B F.
  - assert (0 <= Z.log2 a)%Z by apply Z.log2_nonneg. assert (0 <= Z.log2 b)%Z by apply Z.log2_nonneg. lia.
  - cbn [gcd_loop]. destruct (Z.eqb_spec a 0); [subst; rewrite Z.gcd_0_l, Z.abs_eq; auto|]. destruct (Z.eqb_spec b 0); [subst; rewrite Z.gcd_0_r, Z.abs_eq; auto|].
    assert (LA := Z.log2_nonneg a). assert (LB := Z.log2_nonneg b).
    assert (HALF : forall x y, (0 < y)%Z -> (y <= x)%Z -> (Z.log2 (x mod y) + 1 <= Z.log2 x)%Z \/ (x mod y = 0)%Z).
    { intros x y Y XY. destruct (Z.eq_dec (x mod y) 0) as [|NZ]; [now right|]. left. assert (R := Z.mod_pos_bound x y Y).
      assert (D : (1 <= x / y)%Z) by (apply Z.div_le_lower_bound; lia). assert (E := Z.div_mod x y ltac:(lia)).
      assert (H2 : (2 * (x mod y) <= x)%Z) by nia. assert (L := Z.log2_le_mono _ _ H2). rewrite Z.log2_double in L by lia. lia. }
    destruct (Z.ltb_spec b a).
    + rewrite Z.rem_mod_nonneg by lia. destruct (HALF a b) as [H1 | H1]; [lia|lia| |].
      * rewrite IH; [rewrite Z.gcd_mod by lia; now rewrite Z.gcd_comm|apply Z.mod_pos_bound; lia|auto|lia].
      * rewrite H1. destruct m as [|m]; [lia|]. cbn [gcd_loop]. rewrite Z.eqb_refl. f_equal.
        rewrite (Z.gcd_comm a b), <- (Z.gcd_mod a b), H1, Z.gcd_0_l by lia. now rewrite Z.abs_eq.
    + rewrite Z.rem_mod_nonneg by lia. destruct (HALF b a) as [H1 | H1]; [lia|lia| |].
      * rewrite IH; [|auto|apply Z.mod_pos_bound; lia|lia]. f_equal. rewrite (Z.gcd_comm a (b mod a)), Z.gcd_mod by lia. reflexivity.
      * rewrite H1. destruct m as [|m]; [lia|]. cbn [gcd_loop]. destruct (Z.eqb_spec a 0); [lia|]. rewrite Z.eqb_refl. f_equal.
        rewrite <- (Z.gcd_mod b a), H1, Z.gcd_0_l by lia. now rewrite Z.abs_eq.
Qed.
Lemma compute_gcd_spec : forall a b, (0 <= a)%Z -> (0 <= b)%Z -> compute_gcd a b = Some (Z.gcd a b).
Proof.
  intros a b A B. unfold compute_gcd. destruct (Z.ltb_spec a 0); [lia|]. destruct (Z.ltb_spec b 0); [lia|]. cbn.
  assert (LA := Z.log2_nonneg a). assert (LB := Z.log2_nonneg b). apply gcd_loop_spec; auto; lia.
Qed.

(** ** Rationals *)
Lemma print_long_inj : forall a b, print_long a = print_long b -> a = b.
Proof.
  assert (D : forall u s, digits u <> String "-" s).
  { intros u s H. assert (I : is_digit "-"%char) by (apply (digits_digit u); rewrite H; now left). unfold is_digit in I; cbn in I; intuition discriminate. }
  intros a b H. unfold print_long in H. apply DecimalZ.to_int_inj. destruct (Z.to_int a), (Z.to_int b).
  - apply digits_inj in H. congruence.
  - now apply D in H.
  - symmetry in H. now apply D in H.
  - injection H as H. apply digits_inj in H. congruence.
Qed.
Lemma print_long_chars : forall z c, In c (la (print_long z)) -> c = "-"%char \/ is_digit c.
Proof. intros z c; unfold print_long. destruct (Z.to_int z); cbn; intro H; [|destruct H as [H | H]; [now left|]]; right; eapply digits_digit; eauto. Qed.
Lemma slash_inj : forall a b c d, (print_long a ++ "/" ++ print_long b = print_long c ++ "/" ++ print_long d)%string -> a = c /\ b = d.
Proof.
  intros a b c d H. apply (f_equal la) in H. rewrite !la_app in H. cbn in H.
  assert (N : forall z, ~ In "/"%char (la (print_long z))) by (intros z I; apply print_long_chars in I; unfold is_digit in I; cbn in I; intuition discriminate).
  apply split_at in H; [|apply N|apply N]. destruct H as (H1 & H2). split; apply print_long_inj; now apply la_inj.
Qed.
Lemma read_str : forall l v rest, Forall (fun d => d < 10) l -> match rest with String c _ => isdigit c = false | EmptyString => True end ->
  read_digits v (str l ++ rest) = (val_from v l, rest).
Proof.
  induction l as [|d l IH]; intros v rest D R.
  - cbn. destruct rest as [|c r]; [reflexivity|]. cbn. now rewrite R.
  - inversion D; subst. unfold str. cbn [map string_of_list_ascii append read_digits]. rewrite chr_isdigit, chr_val by auto. fold (str l). rewrite IH by auto. reflexivity.
Qed.
Lemma strtoll_text : forall a rest, numeral_ok a -> match rest with String c _ => isdigit c = false | EmptyString => True end ->
  strtoll (text a ++ rest) = (Z.max LMIN (Z.min LMAX (value a)), rest).
Proof.
  intros a rest O R. unfold strtoll. rewrite take_sign_text by auto. rewrite read_str by (auto; apply O).
  unfold value. destruct (nsign a) as [[|]|]; reflexivity.
Qed.
Definition in_range (z : Z) : Prop := (- LMAX <= z <= LMAX)%Z.
Lemma rational_text : forall a b, numeral_ok a -> numeral_ok b -> in_range (value a) -> in_range (value b) -> value b <> 0%Z ->
  let g := Z.gcd (Z.abs (value a)) (Z.abs (value b)) in
  normalize_rational (ratio_text a b) =
    Norm (print_long ((if xorb (value a <? 0) (value b <? 0) then -1 else 1) * (Z.abs (value a) / g))%Z ++ "/" ++ print_long (Z.abs (value b) / g)%Z)%string.
Proof.
  intros a b A B RA RB NZ g. unfold normalize_rational, ratio_text.
  rewrite strtoll_text by (auto; reflexivity). assert (T := strtoll_text b EmptyString B I). rewrite append_nil in T.
  assert (CL : forall z, in_range z -> Z.max LMIN (Z.min LMAX z) = z) by (unfold in_range, LMIN, LMAX; intros; lia).
  rewrite CL in * by auto. cbn [append]. rewrite (eq_refl : Ascii.eqb "/" "/" = true). rewrite T.
  destruct (Z.eqb_spec (value b) 0); [congruence|].
  assert (NG : forall z, in_range z -> (if (z <? 0)%Z then negate z else Some z) = Some (Z.abs z)).
  { intros z R. destruct (Z.ltb_spec z 0); [|now rewrite Z.abs_eq]. unfold negate. destruct (Z.eqb_spec z LMIN); [unfold in_range, LMIN, LMAX in *; lia|].
    now rewrite Z.abs_neq by lia. }
  rewrite !NG by auto. rewrite compute_gcd_spec by apply Z.abs_nonneg. fold g.
  assert (GP : (0 < g)%Z).
  { assert (0 <= g)%Z by apply Z.gcd_nonneg. assert (g <> 0)%Z; [|lia]. unfold g. intro E. apply Z.gcd_eq_0_r in E. lia. }
  rewrite !Z.quot_div_nonneg by (auto; apply Z.abs_nonneg). do 2 f_equal.
  destruct (xorb (value a <? 0)%Z (value b <? 0)%Z); f_equal; lia.
Qed.
Lemma reduced_unique : forall a b c d : Z, (0 <= a)%Z -> (0 < b)%Z -> (0 <= c)%Z -> (0 < d)%Z -> (a * d = c * b)%Z ->
  (a / Z.gcd a b = c / Z.gcd c d /\ b / Z.gcd a b = d / Z.gcd c d)%Z.
Proof.
  intros a b c d A B C D E.
  assert (GP : forall x y, (0 < y)%Z -> (0 < Z.gcd x y)%Z).
  { intros x y Y. assert (0 <= Z.gcd x y)%Z by apply Z.gcd_nonneg. assert (Z.gcd x y <> 0)%Z; [|lia]. intro F. apply Z.gcd_eq_0_r in F. lia. }
  assert (G1 := GP a b B). assert (G2 := GP c d D).
  destruct (Z.gcd_divide_l a b) as (a' & HA). destruct (Z.gcd_divide_r a b) as (b' & HB). destruct (Z.gcd_divide_l c d) as (c' & HC). destruct (Z.gcd_divide_r c d) as (d' & HD).
  set (g := Z.gcd a b) in *. set (h := Z.gcd c d) in *.
  assert (R1 : Z.gcd a' b' = 1%Z). { assert (X := Z.gcd_div_gcd a b g ltac:(lia) eq_refl). rewrite HA, HB, !Z.div_mul in X by lia. exact X. }
  assert (R2 : Z.gcd c' d' = 1%Z). { assert (X := Z.gcd_div_gcd c d h ltac:(lia) eq_refl). rewrite HC, HD, !Z.div_mul in X by lia. exact X. }
  rewrite HA, HB, HC, HD, !Z.div_mul by lia.
  clearbody g h.
  assert (E' : (a' * d' = c' * b')%Z).
  { apply (Z.mul_reg_r _ _ (g * h)); [nia|]. replace (a' * d' * (g * h))%Z with (a' * g * (d' * h))%Z by ring. replace (c' * b' * (g * h))%Z with (c' * h * (b' * g))%Z by ring. congruence. }
  assert (PB : (0 < b')%Z) by nia. assert (PD : (0 < d')%Z) by nia.
  assert (D1 : (b' | d')%Z). { apply (Z.gauss b' a' d'); [exists c'; lia|now rewrite Z.gcd_comm]. }
  assert (D2 : (d' | b')%Z). { apply (Z.gauss d' c' b'); [exists a'; lia|now rewrite Z.gcd_comm]. }
  assert (b' = d') by (apply Z.divide_antisym_nonneg; auto; lia). split; [nia|auto].
Qed.
Lemma rational_iff : forall a b c d, numeral_ok a -> numeral_ok b -> numeral_ok c -> numeral_ok d ->
  in_range (value a) -> in_range (value b) -> in_range (value c) -> in_range (value d) -> value b <> 0%Z -> value d <> 0%Z ->
  (normalize_rational (ratio_text a b) = normalize_rational (ratio_text c d) <-> (value a * value d = value c * value b)%Z).
Proof.
  intros a b c d A B C D RA RB RC RD NB ND. rewrite !rational_text by auto. cbn zeta.
  set (x := value a) in *. set (y := value b) in *. set (z := value c) in *. set (w := value d) in *. clearbody x y z w. clear A B C D RA RB RC RD.
  assert (GP : forall u v, v <> 0%Z -> (0 < Z.gcd (Z.abs u) (Z.abs v))%Z).
  { intros u v V. assert (0 <= Z.gcd (Z.abs u) (Z.abs v))%Z by apply Z.gcd_nonneg. assert (Z.gcd (Z.abs u) (Z.abs v) <> 0)%Z; [|lia]. intro F. apply Z.gcd_eq_0_r in F. lia. }
  assert (G1 := GP x y NB). assert (G2 := GP z w ND).
  assert (ED : forall u v, v <> 0%Z -> exists p q, Z.abs u = (p * Z.gcd (Z.abs u) (Z.abs v))%Z /\ Z.abs v = (q * Z.gcd (Z.abs u) (Z.abs v))%Z /\ (0 <= p)%Z /\ (0 < q)%Z).
  { intros u v V. specialize (GP u v V). destruct (Z.gcd_divide_l (Z.abs u) (Z.abs v)) as (p & P). destruct (Z.gcd_divide_r (Z.abs u) (Z.abs v)) as (q & Q). exists p, q.
    split; [exact P|]. split; [exact Q|]. set (g := Z.gcd (Z.abs u) (Z.abs v)) in *. split; nia. }
  split.
  - intro H. injection H as H. apply slash_inj in H. destruct H as (H1 & H2).
    destruct (ED x y NB) as (p & q & P & Q & P0 & Q0). destruct (ED z w ND) as (r & s & R & S & R0 & S0).
    set (g := Z.gcd (Z.abs x) (Z.abs y)) in *. set (h := Z.gcd (Z.abs z) (Z.abs w)) in *.
    clearbody g h. rewrite P, R, !Z.div_mul in H1 by lia. rewrite Q, S, !Z.div_mul in H2 by lia. subst s.
    assert (SG : forall u v p g, Z.abs u = (p * g)%Z -> (0 <= p)%Z -> (0 < g)%Z -> v <> 0%Z ->
      u = ((if xorb (u <? 0) (v <? 0) then -1 else 1) * p * (if (v <? 0) then - g else g))%Z).
    { intros u v p0 g0 E P1 G0 V. destruct (Z.ltb_spec u 0), (Z.ltb_spec v 0); cbn [xorb]; nia. }
    assert (X := SG x y p g P P0 G1 NB). assert (Zz := SG z w r h R R0 G2 ND).
    assert (Y : y = (q * (if (y <? 0) then - g else g))%Z) by (destruct (Z.ltb_spec y 0); nia).
    assert (W : w = (q * (if (w <? 0) then - h else h))%Z) by (destruct (Z.ltb_spec w 0); nia).
    rewrite H1 in X. set (gg := (if (y <? 0)%Z then (- g)%Z else g)) in *. set (hh := (if (w <? 0)%Z then (- h)%Z else h)) in *.
    set (rr := ((if xorb (z <? 0) (w <? 0) then -1 else 1) * r)%Z) in *. clearbody gg hh rr. rewrite X, Y, Zz, W. ring.
  - intro H. assert (HA : (Z.abs x * Z.abs w = Z.abs z * Z.abs y)%Z) by (rewrite <- !Z.abs_mul; now rewrite H).
    destruct (reduced_unique (Z.abs x) (Z.abs y) (Z.abs z) (Z.abs w)) as (E1 & E2); try apply Z.abs_nonneg; try lia.
    rewrite E1, E2. do 2 f_equal. destruct (Z.eq_dec z 0) as [->|NZ].
    + replace (Z.abs 0) with 0%Z by reflexivity. rewrite Z.div_0_l by (replace (Z.abs 0) with 0%Z in G2 by reflexivity; lia). rewrite !Z.mul_0_r. reflexivity.
    + assert (NX : x <> 0%Z) by (intros ->; nia). f_equal. f_equal.
      destruct (Z.ltb_spec x 0), (Z.ltb_spec y 0), (Z.ltb_spec z 0), (Z.ltb_spec w 0); cbn [xorb]; try reflexivity; nia.
Qed.

(** ** String tokens *)
Definition blur (i : item) : item := match i with Plain c => Plain c | Escaped _ => Escaped backslash end.
Lemma append_assoc : forall a b c, ((a ++ b) ++ c = a ++ (b ++ c))%string.
Proof. induction a; intros; cbn; congruence. Qed.
Lemma scan_items : forall delim l curr lit rest, delim <> backslash -> Forall (item_ok delim) l ->
  scan_loop delim false curr (items_text l ++ String delim rest) lit = Some ((lit ++ items_text (map blur l) ++ String delim EmptyString)%string, rest).
Proof.
  induction l as [|i l IH]; intros curr lit rest ND O.
  - cbn. now rewrite Ascii.eqb_refl.
  - inversion O; subst. cbn [items_text map]. rewrite !append_assoc. destruct i as [c|c]; cbn [item_text append blur].
    + destruct H1 as (P & NE & NB). cbn [scan_loop negb andb]. destruct (Ascii.eqb_spec c delim); [congruence|].
      assert (X : negb (isprint c) && (nat_of_ascii c <=? 127) = false).
      { destruct P as [-> | P]; [reflexivity|]. destruct (Nat.leb_spec (nat_of_ascii c) 127); [lia|]. now rewrite andb_false_r. }
      rewrite X. destruct (Ascii.eqb_spec c backslash); [congruence|]. rewrite IH by auto. rewrite append_assoc. reflexivity.
    + cbn [scan_loop negb andb]. destruct (Ascii.eqb_spec backslash delim); [congruence|]. cbn [negb andb].
      rewrite (eq_refl : negb (isprint backslash) && (nat_of_ascii backslash <=? 127) = false). rewrite (eq_refl : Ascii.eqb backslash backslash = true).
      cbn [negb andb]. rewrite IH by auto. rewrite !append_assoc. reflexivity.
Qed.
