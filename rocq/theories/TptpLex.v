(** * Scanning (proofs for C62) *)
From Coq Require Import Ascii String List Arith Bool Lia.
From Verif Require Import Tptp TptpSpec.
Import ListNotations.
Local Open Scope string_scope.
Local Open Scope nat_scope.
Local Open Scope list_scope.

Lemma text_eqb_eq a b : text_eqb a b = true <-> a = b.
Proof. unfold text_eqb. destruct (list_eq_dec ascii_dec a b); split; congruence. Qed.
Lemma text_eqb_refl a : text_eqb a a = true.
Proof. apply text_eqb_eq; auto. Qed.
Lemma text_eqb_neq a b : text_eqb a b = false <-> a <> b.
Proof. rewrite <- Bool.not_true_iff_false, text_eqb_eq. tauto. Qed.
Lemma is_eq c d : is c d = true <-> c = d.
Proof. apply Ascii.eqb_eq. Qed.
Lemma is_refl c : is c c = true.
Proof. apply is_eq; auto. Qed.
Lemma is_neq c d : is c d = false <-> c <> d.
Proof. rewrite <- Bool.not_true_iff_false, is_eq. tauto. Qed.

Lemma span_len p s : length (snd (span p s)) <= length s.
Proof. induction s as [|c s IH]; cbn; auto. destruct (p c); cbn; auto. destruct (span p s); cbn in *; lia. Qed.
Lemma span_app p a r : forallb p a = true -> match r with c :: _ => p c = false | [] => True end -> span p (a ++ r) = (a, r).
Proof.
  induction a as [|c a IH]; cbn; intros H Hr.
  - destruct r as [|d r]; cbn; auto. rewrite Hr; auto.
  - apply andb_true_iff in H as [Hc Ha]. rewrite Hc, (IH Ha Hr). auto.
Qed.
Lemma span_all p s a b : span p s = (a, b) -> forallb p a = true.
Proof.
  revert a b; induction s as [|c s IH]; cbn; intros a b H.
  - inversion H; auto.
  - destruct (p c) eqn:E.
    + destruct (span p s) as [a' b'] eqn:E'. inversion H; subst. cbn. rewrite E. eapply IH; eauto.
    + inversion H; auto.
Qed.
Lemma span_split p s a b : span p s = (a, b) -> s = a ++ b.
Proof.
  revert a b; induction s as [|c s IH]; cbn; intros a b H.
  - inversion H; auto.
  - destruct (p c) eqn:E.
    + destruct (span p s) as [a' b'] eqn:E'. inversion H; subst. cbn. f_equal. eapply IH; eauto.
    + inversion H; auto.
Qed.

Lemma scan_str_len d : forall inp e cur acc l r, scan_str d e cur inp acc = Some (l, r) -> length r < length inp.
Proof.
  induction inp as [|c inp IH]; cbn [scan_str]; intros e cur acc l r H; [discriminate|].
  destruct (negb e && is c d); [inversion H; subst; cbn; lia|].
  destruct (negb (isprint (if e then cur else c)) && _); [discriminate|].
  apply IH in H. cbn. lia.
Qed.
Lemma scan_comment_len : forall inp r, scan_C_comment inp = Some r -> length r < length inp.
Proof.
  induction inp as [|c inp IH]; intros r H; [discriminate|].
  assert (W : scan_C_comment inp = Some r \/ exists d, inp = d :: r).
  { destruct inp as [|d inp]. { destruct c as [[] [] [] [] [] [] [] []]; cbn in H; auto. }
    destruct c as [[] [] [] [] [] [] [] []]; cbn -[scan_C_comment] in H; auto.
    destruct d as [[] [] [] [] [] [] [] []]; auto. inversion H; eauto. }
  destruct W as [W|[d ->]]; [apply IH in W; cbn; lia|cbn; lia].
Qed.
Lemma scan_sym_len c r t r' : scan_sym c r = STok t r' -> length r' <= length r.
Proof.
  unfold scan_sym. intros H. destruct c as [[] [] [] [] [] [] [] []]; try discriminate H; try (inversion H; subst; lia);
  repeat match type of H with context [match ?x with _ => _ end] => destruct x; try discriminate H; try (inversion H; subst; cbn; lia) end.
Qed.
Lemma scan_sym_noskip c r r' : scan_sym c r <> SSkip r'.
Proof.
  unfold scan_sym. intros H. destruct c as [[] [] [] [] [] [] [] []]; try discriminate H;
  repeat match type of H with context [match ?x with _ => _ end] => destruct x; try discriminate H end.
Qed.
Lemma scan_token_len s : match scan_token s with SSkip r | STok _ r => length r < length s | _ => True end.
Proof.
  destruct s as [|c r]; cbn [scan_token]; auto.
  destruct (isspace c) eqn:Es.
  { cbn [span]. rewrite Es. pose proof (span_len isspace r). destruct (span isspace r); cbn in *; lia. }
  destruct (isstartidchar c) eqn:Ei.
  { cbn [span]. assert (isidchar c = true) by (unfold isstartidchar, isidchar in *; destruct (isalpha c), (isdigit c); cbn in *; auto).
    rewrite H. pose proof (span_len isidchar r). destruct (span isidchar r); cbn in *; lia. }
  destruct (isdigit c) eqn:Ed.
  { cbn [span]. rewrite Ed. pose proof (span_len isdigit r). destruct (span isdigit r); cbn in *; lia. }
  destruct (isstartcomment c) eqn:Ec.
  { pose proof (span_len (fun x => negb (is x newline)) (c :: r)). cbn [span] in *.
    assert (is c newline = false) as ->.
    { unfold isstartcomment in Ec. apply is_neq. intros ->. revert Ec. now cbn. }
    cbn [negb]. pose proof (span_len (fun x => negb (is x newline)) r). destruct (span _ r) as [a b]; cbn in *. destruct b; cbn in *; lia. }
  destruct (is c "/" && _) eqn:Ek.
  { destruct (scan_C_comment (c :: r)) eqn:E; auto. apply scan_comment_len in E. auto. }
  destruct (is c dquote || is c squote).
  { destruct (scan_str c false c r [c]) as [[l r']|] eqn:E; auto. apply scan_str_len in E. cbn; lia. }
  destruct (is c "$" && _).
  { pose proof (span_len isidchar r). destruct (span isidchar r); cbn in *; lia. }
  destruct (scan_sym c r) eqn:E; auto.
  { now apply scan_sym_noskip in E. }
  apply scan_sym_len in E. cbn; lia.
Qed.
(** the scanner comes to an end *)
Lemma tokens_fuel : forall n sk s, length s < n -> tokens n sk s <> LexFuel.
Proof.
  induction n as [|n IH]; intros sk s H; [lia|]. cbn [tokens]. pose proof (scan_token_len s) as W.
  destruct (scan_token s) as [|r|t r|]; try discriminate.
  - apply IH; lia.
  - assert (tokens n false r <> LexFuel) by (apply IH; lia). destruct (tokens n false r); cbn; congruence.
Qed.
Lemma tokens_more : forall n sk s l m, tokens n sk s = Tokens l -> length s < m -> tokens m sk s = Tokens l.
Proof.
  induction n as [|n IH]; intros sk s l m H Hm; [discriminate|]. destruct m as [|m]; [lia|]. cbn [tokens] in *. pose proof (scan_token_len s) as W.
  destruct (scan_token s) as [|r|t r|]; auto.
  - eapply IH; eauto; lia.
  - destruct (tokens n false r) as [l'| |] eqn:E; cbn in H; try discriminate. rewrite (IH _ _ _ m E) by lia. auto.
Qed.

Definition Lex (sk : bool) (s : text) (l : list token) : Prop := exists n, tokens n sk s = Tokens l.
Lemma lex_tokenize s l : Lex false s l -> tokenize s = Tokens l.
Proof. intros [n H]. unfold tokenize. eapply tokens_more; eauto. Qed.
Lemma tokenize_lex s l : tokenize s = Tokens l -> Lex false s l.
Proof. intros H. eexists; eauto. Qed.
Lemma lex_tok sk s t r l : scan_token s = STok t r -> Lex false r l -> Lex sk s ((sk, t) :: l).
Proof. intros H [n E]. exists (S n). cbn [tokens]. rewrite H, E. auto. Qed.
Lemma lex_skip sk s r l : scan_token s = SSkip r -> Lex true r l -> Lex sk s l.
Proof. intros H [n E]. exists (S n). cbn [tokens]. rewrite H, E. auto. Qed.
Lemma lex_sym sk c r t r' l : scan_token (c :: r) = STok t r' -> Lex false r' l -> Lex sk (c :: r) ((sk, t) :: l).
Proof. apply lex_tok. Qed.

(** ** Single characters *)
Lemma sc_open r : scan_token ("("%char :: r) = STok OpenBracket r. Proof. reflexivity. Qed.
Lemma sc_close r : scan_token (")"%char :: r) = STok CloseBracket r. Proof. reflexivity. Qed.
Lemma sc_osq r : scan_token ("["%char :: r) = STok OpenSquare r. Proof. reflexivity. Qed.
Lemma sc_csq r : scan_token ("]"%char :: r) = STok CloseSquare r. Proof. reflexivity. Qed.
Lemma sc_comma r : scan_token (","%char :: r) = STok Comma r. Proof. reflexivity. Qed.
Lemma sc_colon r : scan_token (":"%char :: r) = STok Colon r. Proof. reflexivity. Qed.
Lemma sc_quest r : scan_token ("?"%char :: r) = STok QuestionMark r. Proof. reflexivity. Qed.
Lemma sc_pipe r : scan_token ("|"%char :: r) = STok Pipe r. Proof. reflexivity. Qed.
Lemma sc_amp r : scan_token ("&"%char :: r) = STok Ampersand r. Proof. reflexivity. Qed.
Lemma sc_hyphen r : scan_token ("-"%char :: r) = STok Hyphen r. Proof. reflexivity. Qed.
Lemma sc_neq r : scan_token ("!"%char :: "="%char :: r) = STok NegEqualSign r. Proof. reflexivity. Qed.
Lemma sc_all r : scan_token ("!"%char :: "["%char :: r) = STok Exclamation ("["%char :: r). Proof. reflexivity. Qed.
Lemma sc_impl r : scan_token ("="%char :: ">"%char :: r) = STok FOFLRImpl r. Proof. reflexivity. Qed.
Lemma sc_equiv r : scan_token ("<"%char :: "="%char :: ">"%char :: r) = STok FOFEquiv r. Proof. reflexivity. Qed.
Lemma sc_xor r : scan_token ("<"%char :: "~"%char :: ">"%char :: r) = STok FOFXor r. Proof. reflexivity. Qed.
Lemma sc_nand r : scan_token ("~"%char :: "&"%char :: r) = STok FOFNand r. Proof. reflexivity. Qed.
Lemma sc_nor r : scan_token ("~"%char :: "|"%char :: r) = STok FOFNor r. Proof. reflexivity. Qed.
Lemma sc_space r : match r with c :: _ => isspace c = false | [] => False end -> scan_token (" "%char :: r) = SSkip r.
Proof. destruct r as [|c r]; [easy|]. intros H. cbn. rewrite H. auto. Qed.
(** what a term or formula starts with *)
Definition opener (c : ascii) : bool := isstartidchar c || isdigit c || is c "$" || is c squote || is c dquote || is c "-" || is c "(" || is c "~" || is c "!" || is c "?".
Lemma sc_eq c r : opener c = true -> scan_token ("="%char :: c :: r) = STok EqualSign (c :: r).
Proof. intros H. destruct c as [[] [] [] [] [] [] [] []]; try reflexivity; discriminate H. Qed.
Lemma sc_bimpl c r : opener c = true -> scan_token ("<"%char :: "="%char :: c :: r) = STok FOFRLImpl (c :: r).
Proof. intros H. destruct c as [[] [] [] [] [] [] [] []]; try reflexivity; discriminate H. Qed.
Lemma sc_tilde c r : opener c = true -> scan_token ("~"%char :: c :: r) = STok TildeSign (c :: r).
Proof. intros H. destruct c as [[] [] [] [] [] [] [] []]; try reflexivity; discriminate H. Qed.
Lemma opener_nospace c : opener c = true -> isspace c = false.
Proof. intros H. destruct c as [[] [] [] [] [] [] [] []]; try reflexivity; discriminate H. Qed.

(** ** Words *)
(** the next character does not continue a word *)
Definition stop (r : text) : Prop := match r with c :: _ => isidchar c = false | [] => True end.
Lemma stop_digit r : stop r -> match r with c :: _ => isdigit c = false | [] => True end.
Proof. destruct r as [|c r]; cbn; auto. unfold isidchar. destruct (isdigit c); auto. rewrite orb_true_r. cbn. auto. Qed.
Lemma sc_ident c a r : isstartidchar c = true -> forallb isidchar a = true -> stop r -> scan_token ((c :: a) ++ r) = STok (Identifier (c :: a)) r.
Proof.
  intros Hc Ha Hr. cbn [app scan_token].
  assert (isspace c = false) as -> by (destruct c as [[] [] [] [] [] [] [] []]; try reflexivity; discriminate Hc).
  rewrite Hc. cbn [span]. assert (isidchar c = true) as -> by (unfold isstartidchar, isidchar in *; destruct (isalpha c), (isdigit c); cbn in *; auto).
  rewrite (span_app _ a r); auto.
Qed.
Lemma sc_num c a r : isdigit c = true -> forallb isdigit a = true -> stop r -> scan_token ((c :: a) ++ r) = STok (PosInt (c :: a)) r.
Proof.
  intros Hc Ha Hr. cbn [app scan_token].
  assert (isspace c = false) as -> by (destruct c as [[] [] [] [] [] [] [] []]; try reflexivity; discriminate Hc).
  assert (isstartidchar c = false) as -> by (destruct c as [[] [] [] [] [] [] [] []]; try reflexivity; discriminate Hc).
  rewrite Hc. cbn [span]. rewrite Hc. rewrite (span_app _ a r); auto. apply stop_digit; auto.
Qed.
Lemma sc_dollar a r : a <> [] -> forallb isidchar a = true -> stop r -> "$"%char :: a <> str "$let" -> "$"%char :: a <> str "$ite" ->
  scan_token (("$"%char :: a) ++ r) = STok (SemIdent ("$"%char :: a)) r.
Proof.
  intros H0 Ha Hr H1 H2. destruct a as [|c a]; [easy|]. cbn in Ha. apply andb_true_iff in Ha as [Hc Ha]. cbn [app]. unfold scan_token.
  change (isspace "$"%char) with false. change (isstartidchar "$"%char) with false. change (isdigit "$"%char) with false.
  change (isstartcomment "$"%char) with false. change (is "$"%char "/"%char) with false. change (is "$"%char dquote) with false.
  change (is "$"%char squote) with false. change (is "$"%char "$"%char) with true. cbn [andb orb]. cbv iota. rewrite Hc.
  cbn [span]. rewrite Hc. rewrite (span_app _ a r); auto.
  rewrite (proj2 (text_eqb_neq _ _) H1), (proj2 (text_eqb_neq _ _) H2). auto.
Qed.
Lemma scan_body q b r : body q b -> q <> bs -> forall cur acc, scan_str q false cur (b ++ q :: r) acc = Some (rev acc ++ b ++ [q], r).
Proof.
  intros Hb Hq. induction Hb as [|c b Hc Hc' Hp Hb IH|b Hb IH]; intros cur acc.
  - cbn. rewrite is_refl. cbn. auto.
  - cbn [app scan_str]. rewrite (proj2 (is_neq c q) Hc). cbn [negb andb].
    assert (negb (isprint c) && (code c <=? 127) = false) as ->.
    { destruct Hp as [-> | Hp]; auto. rewrite (proj2 (Nat.leb_gt _ _) Hp). apply andb_false_r. }
    assert (is c backslash = false) as -> by (apply is_neq; auto). rewrite IH. cbn [rev]. rewrite <- app_assoc. auto.
  - cbn [app scan_str]. assert (is bs q = false) as -> by (apply is_neq; congruence). cbn -[scan_str]. rewrite IH. cbn [rev]. rewrite <- !app_assoc. auto.
Qed.
Lemma sc_squote b r : body squote b -> scan_token ((squote :: b ++ [squote]) ++ r) = STok (SQStr (squote :: b ++ [squote])) r.
Proof.
  intros H. cbn [app scan_token]. cbn -[scan_str]. rewrite <- app_assoc. cbn [app]. change "'"%char with squote. rewrite (scan_body squote b r H); [|discriminate]. auto.
Qed.
Lemma sc_dquote b r : body dquote b -> scan_token ((dquote :: b ++ [dquote]) ++ r) = STok (Str (dquote :: b ++ [dquote])) r.
Proof.
  intros H. cbn [app scan_token]. cbn -[scan_str dquote]. rewrite <- app_assoc. cbn [app]. rewrite (scan_body dquote b r H); [|discriminate]. auto.
Qed.

(** ** Numbers of variables *)
Lemma uint_digits d : forallb isdigit (uint_text d) = true.
Proof. induction d; cbn; auto. Qed.
Lemma digits_id a : forallb isdigit a = true -> forallb isidchar a = true.
Proof. induction a as [|c a IH]; cbn; auto. rewrite !andb_true_iff. intros [H1 H2]; split; auto. unfold isidchar. rewrite H1, orb_true_r. auto. Qed.
Lemma uint_text_inj d e : uint_text d = uint_text e -> d = e.
Proof. revert e; induction d; destruct e; cbn; intros H; try discriminate; auto; f_equal; inversion H; auto. Qed.
Lemma decimal_inj n m : decimal n = decimal m -> n = m.
Proof. intros H. apply uint_text_inj in H. apply (f_equal Nat.of_uint) in H. rewrite !DecimalNat.Unsigned.of_to in H. auto. Qed.
Lemma pr_var_inj x y : pr_var x = pr_var y -> x = y.
Proof.
  unfold pr_var. intros H. pose proof (f_equal (hd "0"%char) H) as H1. pose proof (f_equal (@tl _) H) as H2. cbn [hd tl] in H1, H2. apply decimal_inj in H2.
  assert (E : Nat.odd x = Nat.odd y) by (destruct (Nat.odd x), (Nat.odd y); auto; discriminate).
  destruct (Nat.odd x) eqn:Ex.
  - symmetry in E. apply Nat.odd_spec in Ex as [a ->], E as [b ->].
    replace (2 * a + 1 + 1) with ((a + 1) * 2) in H2 by lia. replace (2 * b + 1 + 1) with ((b + 1) * 2) in H2 by lia. rewrite !Nat.div_mul in H2 by lia. lia.
  - symmetry in E. rewrite <- Nat.negb_even in Ex, E. apply negb_false_iff in Ex, E. apply Nat.even_spec in Ex as [a ->], E as [b ->].
    replace (2 * a + 1) with (1 + a * 2) in H2 by lia. replace (2 * b + 1) with (1 + b * 2) in H2 by lia. rewrite !Nat.div_add in H2 by lia. cbn in H2. lia.
Qed.
Lemma sc_var x r : stop r -> scan_token (pr_var x ++ r) = STok (Identifier (pr_var x)) r.
Proof.
  intros Hr. unfold pr_var. apply sc_ident; auto.
  - destruct (Nat.odd x); auto.
  - apply digits_id, uint_digits.
Qed.
