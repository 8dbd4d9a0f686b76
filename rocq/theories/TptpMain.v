(** * What is printed is read back: terms, literals and formulas (proofs for C62) *)
From Coq Require Import Ascii String List Arith Bool Lia.
From Verif Require Import Tptp TptpSpec TptpLex TptpFuel TptpProofs.
Import ListNotations.
Local Open Scope string_scope.
Local Open Scope nat_scope.
Local Open Scope list_scope.

Definition PT s L t s' l := exists n0, forall n, n0 <= n -> parse_tm n s L = Ok t s' l.
Definition PA s L t s' l := exists n0, forall n, n0 <= n -> parse_args n s L = Ok t s' l.
Definition PL s L t s' l := exists n0, forall n, n0 <= n -> parse_lit n s L = Ok t s' l.
Definition PQ q s L t s' l := exists n0, forall n, n0 <= n -> parse_q n q s L = Ok t s' l.
Definition PF s L t s' l := exists n0, forall n, n0 <= n -> parse_fm n s L = Ok t s' l.
Definition PR q s L t s' l := exists n0, forall n, n0 <= n -> rest_body (parse_q n) (parse_lit n) q s L = Ok t s' l.
Ltac fuel n := intros n ?; destruct n as [|n]; [lia|].

Lemma PT_sym s L t s' l : PT s L t s' l -> parse_sym L <> None.
Proof. intros [n H] E. specialize (H (S n)). rewrite parse_tm_S in H. unfold tm_body in H. rewrite E in H. discriminate H. lia. Qed.
Lemma PA_close s L t s' l : PA s L t s' l -> match L with (_, CloseBracket) :: _ => False | _ => True end.
Proof.
  intros [n H]. specialize (H (S (S n))). destruct L as [|[z []] L]; auto. rewrite parse_args_S in H. unfold args_body in H. rewrite parse_tm_S in H. discriminate H. lia.
Qed.
Lemma lit_is_atom pq pf pl pat s L : parse_sym L <> None -> lit_body pq pf pl pat s L = pat s L.
Proof. intros H. destruct L as [|[z []] L]; cbn in H |- *; auto; now contradiction H. Qed.
Lemma PL_bare s L f s' l : PL s L f s' l -> bare L = false.
Proof.
  intros [n H]. specialize (H (S (S (S n)))). destruct L as [|[z o] [|[z' []] L]]; auto.
  assert (E : forall m, parse_tm (S m) s ((z', CloseBracket) :: L) = Err) by reflexivity.
  destruct o; auto; exfalso; assert (H' := H ltac:(lia)); cbn in H'; discriminate H'.
Qed.

Section Main.
Variables (vsort : nat -> text) (kind : text -> nat * bool) (pname : text -> text).
Notation inv := (inv vsort kind). Notation usable := (usable vsort). Notation post := (post vsort kind).
Hypothesis consts : constants_ok kind pname.
Hypothesis sorts : forall x, vsort x <> default_sort -> word (vsort x) 0.
Notation pr_tm := (pr_tm pname).
Notation pr := (pr vsort pname).

Definition shape (t : tm) : Prop := match t with TV _ => True | TF f args => sym_ok kind pname f args /\ Forall (fterm kind pname) args end.
Lemma fterm_shape t : fterm kind pname t -> shape t.
Proof. intros [x|f args H1 H2 H3]; cbn; auto. Qed.
Lemma atom_shape t : atom kind pname t -> shape t.
Proof. intros [f args H1 H2 H3]; cbn; auto. Qed.

Definition more_args (l : list tm) : text := flat_map (fun u => ","%char :: pr_tm u) l.
Lemma pr_tm_cons f a l : pr_tm (TF f (a :: l)) = pname f ++ "("%char :: pr_tm a ++ more_args l ++ [")"%char].
Proof.
  reflexivity.
Qed.
Lemma pr_tm_nil f : pr_tm (TF f []) = pname f.
Proof. cbn. apply app_nil_r. Qed.
Lemma tvars_TF f args : tvars (TF f args) = flat_map tvars args.
Proof. reflexivity. Qed.

(** first characters *)
Definition opens (x : text) : Prop := match x with c :: _ => opener c = true | [] => False end.
Lemma opens_app x y : opens x -> opens (x ++ y).
Proof. destruct x; cbn; auto; easy. Qed.
Lemma word_opens p n : word p n -> opens p.
Proof.
  intros [c a m Hc Ha|c a m Hc Ha Hp|a m Ha Ha' Hi|b m Hb]; cbn; auto; unfold opener.
  - rewrite lower_start; auto.
  - rewrite upper_start; auto.
Qed.
Lemma numeral_opens d : numeral d -> opens d.
Proof. intros [|c a Hc _ _]; cbn; auto. unfold opener. rewrite Hc. rewrite orb_true_r. auto. Qed.
Lemma name_opens p n : name_ok p n -> opens p.
Proof. intros [p' m H|b H|d H|d H _]; [eapply word_opens; eauto|reflexivity|apply numeral_opens; auto|reflexivity]. Qed.
Lemma var_opens x : opens (pr_var x).
Proof. unfold pr_var. cbn. destruct (Nat.odd x); auto. Qed.
Lemma tm_opens t : shape t -> opens (pr_tm t).
Proof. destruct t as [x|f args]; [intros _; apply var_opens|]. intros [(_ & H & _) _]. cbn. apply opens_app. eapply name_opens; eauto. Qed.
Lemma opens_cons x : opens x -> exists c y, x = c :: y /\ opener c = true.
Proof. destruct x as [|c y]; cbn; [easy|eauto]. Qed.
Lemma lex_tilde sk x l : opens x -> Lex false x l -> Lex sk ("~"%char :: x) ((sk, TildeSign) :: l).
Proof. intros H Hl. destruct (opens_cons x H) as (c & y & -> & Hc). eapply lex_tok; [apply sc_tilde; auto|auto]. Qed.
Lemma lex_eq sk x l : opens x -> Lex false x l -> Lex sk ("="%char :: x) ((sk, EqualSign) :: l).
Proof. intros H Hl. destruct (opens_cons x H) as (c & y & -> & Hc). eapply lex_tok; [apply sc_eq; auto|auto]. Qed.

Lemma ren_tm_le s s' t : le_s s s' -> (forall x, In x (tvars t) -> known s x) -> ren_tm (rho s') t = ren_tm (rho s) t.
Proof.
  intros L. induction t as [x|f args IH] using tm_ind'; intros K; cbn [ren_tm].
  - f_equal. apply rho_le; auto. apply K. cbn; auto.
  - f_equal. rewrite tvars_TF in K. rewrite Forall_forall in IH. apply map_ext_in. intros u Hu. apply IH; auto. intros x Hx. apply K. apply in_flat_map. eauto.
Qed.
Lemma ren_le s s' f : le_s s s' -> (forall x, In x (vars f) -> known s x) -> ren (rho s') f = ren (rho s) f.
Proof.
  intros L. induction f as [p l r|f IH|o f IHf g IHg|q x f IH]; cbn; intros K.
  - rewrite !(ren_tm_le s s'); auto; intros x Hx; apply K, in_app_iff; auto.
  - rewrite IH; auto.
  - rewrite IHf, IHg; auto; intros x Hx; apply K, in_app_iff; auto.
  - rewrite IH, (rho_le s s'); auto.
Qed.
Lemma post_sub s s' V W : post s s' W -> (forall x, In x V -> In x W) -> post s s' V.
Proof. intros (A & B & C) H. split; auto. Qed.

(** ** Terms *)
Definition reads (t : tm) : Prop := forall s r l sk, inv s -> (forall x, In x (tvars t) -> usable s x) -> stop r -> calm l -> Lex false r l ->
  exists L s', Lex sk (pr_tm t ++ r) L /\ PT s L (ren_tm (rho s') t) s' l /\ post s s' (tvars t).
Lemma args_read : forall us u, Forall (fun t => shape t -> reads t) (u :: us) -> Forall (fterm kind pname) (u :: us) ->
  forall s r l, inv s -> (forall x, In x (flat_map tvars (u :: us)) -> usable s x) -> Lex false r l ->
  exists L s', Lex false (pr_tm u ++ more_args us ++ ")"%char :: r) L /\ PA s L (map (ren_tm (rho s')) (u :: us)) s' l /\ post s s' (flat_map tvars (u :: us)).
Proof.
  induction us as [|w us IH]; intros u HR HF s r l Hs Hu Hl; inversion HR as [|? ? HR1 HR2]; inversion HF as [|? ? HF1 HF2]; subst.
  - assert (Hl' : Lex false (")"%char :: r) ((false, CloseBracket) :: l)) by (eapply lex_tok; [apply sc_close|auto]).
    destruct (HR1 (fterm_shape _ HF1) s (")"%char :: r) ((false, CloseBracket) :: l) false Hs) as (L & s1 & H1 & [n0 H2] & H3); auto; [|reflexivity|exact I|].
    { intros x Hx. apply Hu. cbn. rewrite app_nil_r. auto. }
    destruct (subterm_ok vsort kind (ren_tm (rho s1) u) s1) as (s2 & E & A2 & B2); [apply H3|destruct HF1; cbn; auto|].
    exists L, s2. cbn [more_args flat_map app]. rewrite app_nil_r. split; [auto|]. split; [|eapply post_sig; eauto].
    exists (S n0). fuel n. rewrite parse_args_S. unfold args_body. rewrite H2 by lia. cbn [bind]. rewrite E. cbn [map]. do 2 f_equal.
    unfold rho. rewrite B2. auto.
  - destruct (IH w HR2 HF2) with (s := s) (r := r) (l := l) as (L2 & s2' & Hlex & _ & _); auto.
    { intros x Hx. apply Hu. cbn [flat_map]. apply in_app_iff; auto. }
    assert (Hl' : Lex false (","%char :: pr_tm w ++ more_args us ++ ")"%char :: r) ((false, Comma) :: L2)) by (eapply lex_tok; [apply sc_comma|auto]).
    assert (Hua : forall x, In x (tvars u) -> usable s x) by (intros x Hx; apply Hu; cbn [flat_map]; apply in_app_iff; auto).
    destruct (HR1 (fterm_shape _ HF1) s (","%char :: pr_tm w ++ more_args us ++ ")"%char :: r) ((false, Comma) :: L2) false Hs Hua eq_refl I Hl') as (L & s1 & H1 & [n0 H2] & H3).
    destruct (subterm_ok vsort kind (ren_tm (rho s1) u) s1) as (s1' & E & A2 & B2); [apply H3|destruct HF1; cbn; auto|].
    pose proof (post_sig _ _ _ _ _ _ H3 A2 B2) as P1.
    destruct (IH w HR2 HF2) with (s := s1') (r := r) (l := l) as (L2' & s2 & Hlex' & [n1 H4] & H5); auto.
    { apply P1. } { intros x Hx. eapply usable_le; [apply P1|]. apply Hu. cbn [flat_map]. apply in_app_iff; auto. }
    assert (L2' = L2) as ->. { apply lex_tokenize in Hlex, Hlex'. congruence. }
    exists L, s2. cbn [more_args flat_map app] in *. rewrite <- app_assoc. cbn [app]. split; [auto|]. split; [|eapply post_trans; eauto].
    exists (S (max n0 n1)). fuel n. rewrite parse_args_S. unfold args_body. rewrite H2 by lia. cbn [bind]. rewrite E. rewrite H4 by lia. cbn [bind map]. do 2 f_equal.
    transitivity (ren_tm (rho s1') u); [unfold rho; rewrite B2; auto|]. symmetry. apply ren_tm_le; [apply H5|apply P1].
Qed.
Lemma term_read t : shape t -> reads t.
Proof.
  induction t as [x|f args IH] using tm_ind'; intros Hsh s r l sk Hs Hu Hr Hc Hl.
  - cbn [Tptp.pr_tm]. destruct (var_read x sk r l Hr Hl) as (L & H1 & H2). { destruct l as [|[z []] l]; auto; easy. }
    destruct (var_alloc_ok vsort (bank s) x) as (v & b & E & B & Lb & K); [apply Hs|apply Hu; cbn; auto|].
    exists L, (set_bank s b). split; [auto|]. split.
    + exists 1. fuel n. rewrite parse_tm_S. unfold tm_body. rewrite H2, E. cbn [ren_tm]. unfold rho. cbn. rewrite K.
      destruct l as [|[z []] l]; auto; easy.
    + split; [split; [apply Hs|auto]|]. split; [auto|]. cbn. intros y [<-|[]]. unfold known. cbn. rewrite K. discriminate.
  - destruct Hsh as [(Ha & Hn & Hr') HF]. rewrite tvars_TF in *.
    destruct args as [|a args].
    + rewrite pr_tm_nil. destruct (name_read (pname f) 0 sk r l Hn Hr Hl) as (L & k & H1 & H2 & H3 & _); [auto|lia|].
      destruct (sig_insert_ok kind s (pname f) 0) as (s' & E & A & B); [apply Hs|rewrite Hr'; auto|].
      exists L, s'. split; [auto|]. split; [|eapply post_sig; eauto; apply post_refl; auto].
      exists 1. fuel n. rewrite parse_tm_S. unfold tm_body. rewrite H2. destruct k; [easy| |];
        (assert (Q : forall X : list token -> parsed (list tm), (match l with (_, OpenBracket) :: l2 => X l2 | _ => Ok [] s l end) = Ok [] s l) by (intros; destruct l as [|[z []] l]; auto; easy)).
      * rewrite (Q (fun l2 => match l2 with (_, CloseBracket) :: l3 => Ok [] s l3 | _ => parse_args n s l2 end)). cbn [bind length]. rewrite E, Hr'. auto.
      * rewrite (Q (fun l2 => Err)). cbn [bind length]. rewrite E, Hr'. auto.
    + rewrite pr_tm_cons. destruct (args_read args a IH HF s r l Hs Hu Hl) as (L1 & s1 & H1 & HPA & H3). pose proof (PA_close _ _ _ _ _ HPA) as Hcl. destruct HPA as [n0 H2].
      assert (Hl1 : Lex false ("("%char :: pr_tm a ++ more_args args ++ ")"%char :: r) ((false, OpenBracket) :: L1)) by (eapply lex_tok; [apply sc_open|auto]).
      destruct (name_read (pname f) (length (a :: args)) sk ("("%char :: pr_tm a ++ more_args args ++ ")"%char :: r) _ Hn eq_refl Hl1) as (L & k & H4 & H5 & H6 & H7); [cbn; lia|intros _; eauto|].
      destruct (sig_insert_ok kind s1 (pname f) (length (a :: args))) as (s2 & E & A & B); [apply H3|rewrite Hr'; auto|].
      exists L, s2. split. { cbn [app]. rewrite <- !app_assoc. cbn [app]. rewrite <- !app_assoc. cbn [app]. auto. }
      split; [|eapply post_sig; eauto].
      exists (S n0). fuel n. rewrite parse_tm_S. unfold tm_body. rewrite H5. rewrite H7 by (cbn; lia).
      assert ((match L1 with (_, CloseBracket) :: l3 => Ok [] s l3 | _ => parse_args n s L1 end) = Ok (map (ren_tm (rho s1)) (a :: args)) s1 l) as ->.
      { rewrite H2 by lia. destruct L1 as [|[z []] L1]; auto; easy. }
      cbn [bind]. rewrite map_length, E, Hr'. cbn [ren_tm]. unfold rho. rewrite B. auto.
Qed.

(** ** Literals *)
Definition quiet (l : list token) : Prop := calm l /\ match l with (_, EqualSign) :: _ | (_, NegEqualSign) :: _ => False | _ => True end.
Lemma ren_ttrue h : ren_tm h ttrue = ttrue. Proof. reflexivity. Qed.
Lemma ren_not_false h t : t <> tfalse -> ren_tm h t <> tfalse.
Proof. destruct t as [x|f args]; cbn; try discriminate. intros H E. apply H. inversion E; subst. destruct args; [auto|discriminate]. Qed.
Definition lit_reads (x : text) (f : fm) : Prop := forall s r l sk, inv s -> (forall y, In y (free f) -> usable s y) -> stop r -> quiet l -> Lex false r l ->
  exists L s', Lex sk (x ++ r) L /\ PL s L (ren (rho s') f) s' l /\ post s s' (vars f).
Lemma atom_read a : atom kind pname a -> a <> tfalse -> lit_reads (pr_tm a) (Lit true a ttrue).
Proof.
  intros Ha Hf s r l sk Hs Hu Hr [Hq Hq'] Hl. pose proof (atom_shape a Ha) as Hsh. cbn in Hu. rewrite app_nil_r in Hu.
  destruct (term_read a Hsh s r l sk Hs) as (L & s1 & H1 & HPT & H3); auto. pose proof (PT_sym _ _ _ _ _ HPT) as Hsym. destruct HPT as [n0 H2].
  set (s2 := match role s1 (match a with TF f _ => f | TV _ => [] end) with Some true => s1 | _ => declare s1 (match a with TF f _ => f | TV _ => [] end) true end).
  assert (S2 : agrees kind s2 /\ bank s2 = bank s1).
  { destruct H3 as [[A B] _]. destruct Ha as [f args Hk Hsy HF]. subst s2. destruct (role s1 f) as [[]|]; auto; apply declare_ok; auto. }
  exists L, s2. split; [auto|]. split.
  - exists (S n0). fuel n. rewrite parse_lit_S, (lit_is_atom _ _ _ _ _ _ Hsym), parse_atom_eq. unfold atom_body. rewrite H2 by lia. cbn [bind].
    rewrite (proj2 (tm_eqb_neq _ _)) by (apply ren_not_false; auto).
    assert (Er : ren_tm (rho s2) a = ren_tm (rho s1) a) by (unfold rho; rewrite (proj2 S2); auto).
    cbn [ren]. rewrite Er, ren_ttrue. destruct Ha as [f args Hk Hsy HF]. cbn [ren_tm]. subst s2. destruct (role_ok kind s1 f) as [Ero|Ero]; [apply H3| |].
    + rewrite Ero. destruct l as [|[z []] l]; auto; easy.
    + rewrite Hk in Ero. rewrite Ero. auto.
  - cbn [vars]. cbn. rewrite app_nil_r. eapply post_sig; eauto; apply S2.
Qed.
Lemma neg_reads x f : opens x -> lit_reads x f -> lit_reads ("~"%char :: x) (Not f).
Proof.
  intros Ho H s r l sk Hs Hu Hr Hq Hl. destruct (H s r l false Hs Hu Hr Hq Hl) as (L & s' & H1 & [n0 H2] & H3).
  exists ((sk, TildeSign) :: L), s'. split; [cbn [app]; apply lex_tilde; auto using opens_app|]. split; [|auto].
  exists (S n0). fuel n. rewrite parse_lit_S. cbn [lit_body]. rewrite H2 by lia. auto.
Qed.
Lemma not_truth t : fterm kind pname t -> t <> ttrue /\ t <> tfalse.
Proof.
  destruct consts as (C1 & C2 & _). intros [x|f args H _ _]; [split; discriminate|]. unfold ttrue, tfalse. split; intros E.
  - assert (f = str "$true") as -> by congruence. rewrite C1 in H. discriminate.
  - assert (f = str "$false") as -> by congruence. rewrite C2 in H. discriminate.
Qed.
Lemma equation_read (pos : bool) a b : fterm kind pname a -> fterm kind pname b ->
  lit_reads (pr_tm a ++ (if pos then @nil ascii else str "!") ++ str "=" ++ pr_tm b) (Lit pos a b).
Proof.
  intros Ha Hb s r l sk Hs Hu Hr [Hq Hq'] Hl. cbn in Hu. cbn [vars].
  assert (Hua : forall x, In x (tvars a) -> usable s x) by (intros; apply Hu, in_app_iff; auto).
  assert (Hub : forall x, In x (tvars b) -> usable s x) by (intros; apply Hu, in_app_iff; auto).
  destruct (term_read b (fterm_shape b Hb) s r l false Hs) as (Lb & sb & Hlexb & _); auto.
  assert (Ob : opens (pr_tm b ++ r)) by (apply opens_app, tm_opens, fterm_shape; auto).
  set (eqtok := if pos then EqualSign else NegEqualSign).
  assert (Hl' : Lex false ((if pos then @nil ascii else str "!") ++ str "=" ++ pr_tm b ++ r) ((false, eqtok) :: Lb)).
  { destruct pos; cbn [app str list_ascii_of_string]; [apply lex_eq; auto|eapply lex_tok; [apply sc_neq|auto]]. }
  assert (Hst : stop ((if pos then @nil ascii else str "!") ++ str "=" ++ pr_tm b ++ r)) by (destruct pos; reflexivity).
  assert (Hca : calm ((false, eqtok) :: Lb)) by (destruct pos; exact I).
  destruct (term_read a (fterm_shape a Ha) s _ _ sk Hs Hua Hst Hca Hl') as (La & s1 & H1 & HPT & H3).
  pose proof (PT_sym _ _ _ _ _ HPT) as Hsym. destruct HPT as [n0 H2].
  destruct (subterm_ok vsort kind (ren_tm (rho s1) a) s1) as (s1' & E1 & A1 & B1); [apply H3|destruct Ha; cbn; auto|].
  pose proof (post_sig _ _ _ _ _ _ H3 A1 B1) as P1.
  destruct (term_read b (fterm_shape b Hb) s1' r l false) as (Lb' & s2 & Hlexb' & [n1 H4] & H5); auto; [apply P1|intros x Hx; eapply usable_le; [apply P1|auto]|].
  assert (Lb' = Lb) as ->. { apply lex_tokenize in Hlexb, Hlexb'. congruence. }
  destruct (subterm_ok vsort kind (ren_tm (rho s2) b) s2) as (s3 & E2 & A2 & B2); [apply H5|destruct Hb; cbn; auto|].
  pose proof (post_sig _ _ _ _ _ _ H5 A2 B2) as P2.
  exists La, s3. split. { rewrite <- !app_assoc. auto. } split; [|eapply post_trans; eauto].
  exists (S (max n0 n1)). fuel n. rewrite parse_lit_S, (lit_is_atom _ _ _ _ _ _ Hsym), parse_atom_eq. unfold atom_body. rewrite H2 by lia. cbn [bind].
  rewrite (proj2 (tm_eqb_neq _ _)) by (apply ren_not_false, not_truth; auto).
  assert (Q : equation_body (parse_tm n) (ren_tm (rho s1) a) s1 pos Lb = Ok (ren (rho s3) (Lit pos a b)) s3 l).
  { unfold equation_body. rewrite E1, H4 by lia. cbn [bind]. rewrite E2. cbn [ren]. do 2 f_equal.
    - transitivity (ren_tm (rho s1') a); [unfold rho; rewrite B1; auto|]. symmetry. apply ren_tm_le; [apply P2|apply P1].
    - unfold rho; rewrite B2; auto. }
  assert (W : (match ren_tm (rho s1) a with TV _ => Some false | TF f _ => role s1 f end) = Some false \/ (match ren_tm (rho s1) a with TV _ => Some false | TF f _ => role s1 f end) = None).
  { destruct Ha as [x|f args Hk _ _]; cbn; auto. destruct (role_ok kind s1 f) as [-> | ->]; [apply H3|auto|rewrite Hk; auto]. }
  destruct W as [-> | ->]; unfold eqtok; destruct pos; exact Q.
Qed.
Lemma lit_reads_ext x f f' : lit_reads x f -> f = f' -> lit_reads x f'.
Proof. intros H <-; auto. Qed.
Lemma ttrue_atom : atom kind pname ttrue.
Proof.
  destruct consts as (C1 & C2 & C3 & C4). constructor; auto; [rewrite C1; auto|]. split; [rewrite C1; auto|]. rewrite C3. split; [|reflexivity]. apply k_word, (w_dollar (str "true")); [discriminate|auto|].
  cbn. intros [E|[E|[E|[]]]]; discriminate E.
Qed.
Lemma tfalse_atom : atom kind pname tfalse.
Proof.
  destruct consts as (C1 & C2 & C3 & C4). constructor; auto; [rewrite C2; auto|]. split; [rewrite C2; auto|]. rewrite C4. split; [|reflexivity]. apply k_word, (w_dollar (str "false")); [discriminate|auto|].
  cbn. intros [E|[E|[E|[]]]]; discriminate E.
Qed.
Definition pr_signed (pos : bool) (a : tm) : text := (if pos then @nil ascii else str "~") ++ pr_tm a.
Lemma signed_read pos a : atom kind pname a -> lit_reads (let '(p, b) := if tm_eqb a tfalse then (negb pos, ttrue) else (pos, a) in pr_signed p b) (signed_atom pos a).
Proof.
  intros Ha. unfold signed_atom.
  assert (W : forall p b, atom kind pname b -> b <> tfalse -> lit_reads (pr_signed p b) (if p then Lit true b ttrue else Not (Lit true b ttrue))).
  { intros [] b Hb Hn; unfold pr_signed; cbn [app str list_ascii_of_string]; [apply atom_read; auto|].
    apply neg_reads; [apply tm_opens, atom_shape; auto|apply atom_read; auto]. }
  destruct (tm_eqb a tfalse) eqn:E; [apply W; [apply ttrue_atom|discriminate]|]. apply W; auto. apply tm_eqb_neq; auto.
Qed.
Lemma atom_not_fterm a : atom kind pname a -> fterm kind pname a -> False.
Proof. intros [f args H _ _] H'. inversion H'; congruence. Qed.
Lemma lit_read pos a b : wf kind pname (Lit pos a b) -> lit_reads (pr_lit pname pos a b) (norm_lit pos a b).
Proof.
  intros W. inversion W as [? ? ? Ha Hb|? ? ? Ha Hb|? ? ? Ha Hb| | |]; subst.
  - destruct (not_truth a Ha) as [A1 A2], (not_truth b Hb) as [B1 B2]. unfold pr_lit, norm_lit, eqn_alloc.
    rewrite (proj2 (tm_eqb_neq a tfalse)), (proj2 (tm_eqb_neq b tfalse)), (proj2 (tm_eqb_neq a ttrue)), (proj2 (tm_eqb_neq b ttrue)) by auto.
    destruct pos; [apply (equation_read true)|apply (equation_read false)]; auto.
  - destruct Hb as [-> | ->]; unfold norm_lit.
    + rewrite tm_eqb_refl. eapply lit_reads_ext; [|reflexivity]. pose proof (signed_read pos a Ha) as S. revert S.
      unfold pr_lit, eqn_alloc. destruct (tm_eqb a tfalse) eqn:E.
      * cbn. destruct pos; exact (fun V => V).
      * change (tm_eqb ttrue tfalse) with false. cbv iota. destruct (tm_eqb a ttrue) eqn:E2.
        -- apply tm_eqb_eq in E2 as ->. cbn. destruct pos; exact (fun V => V).
        -- rewrite tm_eqb_refl. destruct pos; exact (fun V => V).
    + change (tm_eqb tfalse ttrue) with false. rewrite tm_eqb_refl. pose proof (signed_read (negb pos) a Ha) as S. revert S.
      unfold pr_lit, eqn_alloc. rewrite tm_eqb_refl. destruct (tm_eqb a tfalse) eqn:E.
      * cbn. destruct pos; exact (fun V => V).
      * destruct (tm_eqb a ttrue) eqn:E2.
        -- apply tm_eqb_eq in E2 as ->. cbn. destruct pos; exact (fun V => V).
        -- rewrite tm_eqb_refl. destruct pos; exact (fun V => V).
  - assert (V : forall p, lit_reads (let '(p, b) := if tm_eqb b tfalse then (negb p, ttrue) else (p, b) in pr_signed p b) (signed_atom p b)) by (intros; apply signed_read; auto).
    destruct (tm_eqb b ttrue) eqn:E1; [apply tm_eqb_eq in E1 as ->|destruct (tm_eqb b tfalse) eqn:E2; [apply tm_eqb_eq in E2 as ->|]].
    + pose proof (fun p => signed_read p ttrue ttrue_atom) as T. destruct Ha as [-> | ->]; destruct pos; first [exact (T true)|exact (T false)].
    + pose proof (fun p => signed_read p ttrue ttrue_atom) as T. destruct Ha as [-> | ->]; destruct pos; first [exact (T true)|exact (T false)].
    + unfold norm_lit, pr_lit, eqn_alloc. rewrite E1, E2. destruct Ha as [-> | ->].
      * rewrite tm_eqb_refl. change (tm_eqb ttrue tfalse) with false. cbv iota. rewrite ?tm_eqb_refl, ?E2. specialize (V pos). revert V. rewrite ?tm_eqb_refl. destruct pos; exact (fun V => V).
      * change (tm_eqb tfalse ttrue) with false. rewrite !tm_eqb_refl. cbv iota. rewrite ?E2. rewrite ?tm_eqb_refl. specialize (V (negb pos)). revert V. destruct pos; exact (fun V => V).
Qed.


(** ** Formulas *)
Inductive Steps : fm -> pstate -> list token -> fm -> pstate -> list token -> Prop :=
| st_refl f s l : Steps f s l f s l
| st_step f s z l1 g s1 l2 f' s' l' : PL s l1 g s1 l2 -> Steps (Bin Or f g) s1 l2 f' s' l' -> Steps f s ((z, Pipe) :: l1) f' s' l'.
Lemma steps_snoc f s l f' s' l' z l1 g s1 l2 : Steps f s l f' s' l' -> l' = (z, Pipe) :: l1 -> PL s' l1 g s1 l2 -> Steps f s l (Bin Or f' g) s1 l2.
Proof.
  induction 1 as [f s l|f s z' m1 h t m2 f' s' l' H1 H2 IH]; intros E HP.
  - subst. econstructor; [eauto|constructor].
  - econstructor; [eauto|]. auto.
Qed.
Lemma steps_assoc f s l f' s' l' : Steps f s l f' s' l' -> match l' with (_, Pipe) :: _ => False | _ => True end ->
  exists n0, forall n, n0 <= n -> parse_assoc n Pipe Or f s l = Ok f' s' l'.
Proof.
  induction 1 as [f s l|f s z' m1 h t m2 f' s' l' [n1 H1] H2 IH]; intros Hl.
  - exists 1. fuel n. rewrite parse_assoc_S. unfold assoc_body. destruct l as [|[z []] l]; auto; easy.
  - destruct (IH Hl) as [n0 H0]. exists (S (max n0 n1)). fuel n. rewrite parse_assoc_S. unfold assoc_body. cbn [tok_eqb]. rewrite H1 by lia. cbn [bind]. apply H0; lia.
Qed.
Definition op_tok (o : op) : tok :=
  match o with And => Ampersand | Or => Pipe | Impl => FOFLRImpl | BImpl => FOFRLImpl | Equiv => FOFEquiv | Xor => FOFXor | Nand => FOFNand | Nor => FOFNor end.
Lemma op_lex o sk y l : opens y -> Lex false y l -> Lex sk (op_text o ++ y) ((sk, op_tok o) :: l).
Proof.
  intros Ho Hl. destruct (opens_cons y Ho) as (c & y' & -> & Hc). destruct o; cbn [op_text op_tok app str list_ascii_of_string]; eapply lex_tok; eauto;
    auto using sc_amp, sc_pipe, sc_impl, sc_bimpl, sc_equiv, sc_xor, sc_nand, sc_nor.
Qed.
Lemma op_quiet o z l : quiet ((z, op_tok o) :: l).
Proof. destruct o; split; exact I. Qed.
Lemma op_stop o y : stop (op_text o ++ y).
Proof. destruct o; reflexivity. Qed.
Lemma close_quiet z l : quiet ((z, CloseBracket) :: l).
Proof. split; exact I. Qed.
Lemma lex_open sk x l : Lex false x l -> Lex sk ("("%char :: x) ((sk, OpenBracket) :: l). Proof. intros; eapply lex_tok; [apply sc_open|auto]. Qed.
Lemma lex_close sk x l : Lex false x l -> Lex sk (")"%char :: x) ((sk, CloseBracket) :: l). Proof. intros; eapply lex_tok; [apply sc_close|auto]. Qed.
Lemma fm_of_lit s L f s' z l : PL s L f s' ((z, CloseBracket) :: l) -> PF s L f s' ((z, CloseBracket) :: l).
Proof. intros [n0 H]. exists (S n0). fuel n. rewrite parse_fm_S. unfold fm_body. rewrite H by lia. auto. Qed.
Lemma fm_of_bin s L f s1 z L2 g s2 z' l o : PL s L f s1 ((z, op_tok o) :: L2) -> PL s1 L2 g s2 ((z', CloseBracket) :: l) -> PF s L (Bin o f g) s2 ((z', CloseBracket) :: l).
Proof.
  intros [n0 H0] [n1 H1]. exists (S (S (S (max n0 n1)))). intros n Hn. destruct n as [|[|[|n]]]; [lia|lia|lia|]. rewrite parse_fm_S. unfold fm_body. rewrite H0 by lia. cbn [bind].
  destruct o; cbn [op_tok operator]; try (rewrite H1 by lia; reflexivity);
    rewrite parse_assoc_S; unfold assoc_body; cbn [tok_eqb]; rewrite H1 by lia; cbn [bind]; rewrite parse_assoc_S; reflexivity.
Qed.
Lemma fm_of_chain s L f0 s0 l0 f s' z l : PL s L f0 s0 l0 -> Steps f0 s0 l0 f s' ((z, CloseBracket) :: l) -> PF s L f s' ((z, CloseBracket) :: l).
Proof.
  intros [n0 H0] H. destruct (steps_assoc _ _ _ _ _ _ H I) as [n1 H1]. exists (S (max n0 n1)). fuel n. rewrite parse_fm_S. unfold fm_body. rewrite H0 by lia. cbn [bind].
  inversion H; subst; [reflexivity|]. apply H1; lia.
Qed.
Lemma lit_of_fm s L f s' z z' l : PF s L f s' ((z, CloseBracket) :: l) -> bare L = false -> PL s ((z', OpenBracket) :: L) f s' l.
Proof. intros [n0 H] Hb. exists (S n0). fuel n. rewrite parse_lit_S. cbn [lit_body]. rewrite Hb, H by lia. reflexivity. Qed.

Definition plain_ok (f : fm) : Prop := opens (pr Plain f) /\ lit_reads (pr Plain f) (norm f).
Definition chain_ok (f : fm) : Prop := opens (pr Chain f) /\
  forall s r l sk, inv s -> (forall y, In y (free (norm f)) -> usable s y) -> stop r -> quiet l -> Lex false r l ->
  exists L s', Lex sk (pr Chain f ++ r) L /\ (exists f0 s0 l0, PL s L f0 s0 l0 /\ Steps f0 s0 l0 (ren (rho s') (norm f)) s' l) /\ post s s' (vars (norm f)).
Definition tail_ok (f : fm) : Prop :=
  forall q s r l, inv s -> (forall y, In y (free (norm f)) -> usable s y) -> stop r -> quiet l -> Lex false r l ->
  exists L s', Lex false (pr (Tail q) f ++ r) L /\ PR q s L (ren (rho s') (norm f)) s' l /\ post s s' (vars (norm f)).
Lemma paren_read x f : opens x -> lit_reads x f -> lit_reads ("("%char :: x ++ [")"%char]) f.
Proof.
  intros Ho H s r l sk Hs Hu Hr Hq Hl. pose proof (lex_close false _ _ Hl) as Hl'.
  destruct (H s (")"%char :: r) ((false, CloseBracket) :: l) false Hs Hu eq_refl (close_quiet _ _) Hl') as (L & s' & H1 & H2 & H3).
  exists ((sk, OpenBracket) :: L), s'. split; [cbn [app]; rewrite <- app_assoc; apply lex_open; auto|]. split; [|auto].
  eapply lit_of_fm; [apply fm_of_lit; eauto|eapply PL_bare; eauto].
Qed.
Lemma plain_chain f : plain_ok f -> pr Chain f = pr Plain f -> chain_ok f.
Proof.
  intros [Ho H] E. unfold chain_ok. rewrite E. split; auto. intros s r l sk Hs Hu Hr Hq Hl. destruct (H s r l sk Hs Hu Hr Hq Hl) as (L & s' & H1 & H2 & H3).
  exists L, s'. split; auto. split; auto. eexists _, _, _. split; eauto. constructor.
Qed.
Lemma pr_tail_other q f : (forall x g, f <> Qu q x g) -> pr (Tail q) f = str "]:(" ++ pr Plain f ++ str ")".
Proof.
  intros H. destruct f as [p a b|f|o f g|q' x g]; auto. cbn [Tptp.pr]. destruct (Bool.eqb q q') eqn:E; auto. apply Bool.eqb_prop in E as ->. now contradiction (H x g).
Qed.
Lemma plain_tail q f s r l : plain_ok f -> (forall x g, f <> Qu q x g) -> inv s -> (forall y, In y (free (norm f)) -> usable s y) -> stop r -> quiet l -> Lex false r l ->
  exists L s', Lex false (pr (Tail q) f ++ r) L /\ PR q s L (ren (rho s') (norm f)) s' l /\ post s s' (vars (norm f)).
Proof.
  intros [Ho H] Hn Hs Hu Hr Hq Hl. destruct (paren_read _ _ Ho H s r l false Hs Hu Hr Hq Hl) as (L & s' & H1 & [n0 H2] & H3).
  exists ((false, CloseSquare) :: (false, Colon) :: L), s'. split; [|split; [|auto]].
  - rewrite (pr_tail_other q f Hn). cbn [app str list_ascii_of_string] in *. rewrite <- app_assoc in *. eapply lex_tok; [apply sc_csq|]. eapply lex_tok; [apply sc_colon|]. auto.
  - exists n0. intros n Hn'. unfold rest_body. cbn [accept tok_eqb]. rewrite H2 by lia. cbn [bind]. unfold absorb. destruct Hq as [_ Hq]. destruct l as [|[z []] l]; auto; easy.
Qed.

(** the quantified variable *)
Lemma inv_env s v : inv s -> inv (set_bank s (set_ext (bank s) (ext (bank s)) v)).
Proof. intros [A [[B1 B2 B3 B4] C D E]]. split; [exact A|]. constructor; cbn; auto. constructor; cbn; auto. Qed.
Lemma qvar_read x s r l sk : inv s -> stop r -> calm l -> Lex false r l ->
  exists L s', Lex sk (pr_qvar vsort x ++ r) L /\ PT s L (TV (rho s' x)) s' l /\ post s s' [x].
Proof.
  intros Hs Hr Hc Hl. unfold pr_qvar. destruct (text_eqb (vsort x) default_sort) eqn:E.
  - rewrite app_nil_r. apply text_eqb_eq in E. destruct (term_read (TV x) I s r l sk Hs) as (L & s' & H1 & H2 & H3); eauto 6.
    cbn. intros y [<-|[]]. left; auto.
  - apply text_eqb_neq in E. destruct (word_read (vsort x) 0 false r l (sorts x E) Hr Hl) as (L1 & H1 & H2); [auto|lia|].
    destruct (var_read x sk (":"%char :: vsort x ++ r) ((false, Colon) :: L1)) as (L & H3 & H4); [reflexivity|eapply lex_tok; [apply sc_colon|auto]|exact I|].
    destruct (var_alloc_sort_ok vsort (bank s) x) as (v & b & Ev & B & Lb & K); [apply Hs|].
    exists L, (set_bank s b). split; [rewrite <- app_assoc; auto|]. split.
    + exists 1. fuel n. rewrite parse_tm_S. unfold tm_body. rewrite H4. unfold parse_sort. rewrite H2. assert ((match l with (_, OpenBracket) :: _ => None | _ => Some (vsort x, l) end) = Some (vsort x, l)) as -> by (destruct l as [|[z []] l]; auto; easy).
      rewrite Ev. unfold rho. cbn. rewrite K. auto.
    + split; [split; [apply Hs|auto]|]. split; [auto|]. cbn. intros y [<-|[]]. unfold known. cbn. rewrite K. discriminate.
Qed.
Lemma tail_first q f r : exists c y, pr (Tail q) f ++ r = c :: y /\ (c = ","%char \/ c = "]"%char).
Proof.
  assert (D : pr (Tail q) f = str "]:(" ++ pr Plain f ++ str ")" \/ exists y, pr (Tail q) f = str ", " ++ y).
  { destruct f as [p a b|f|o f g|q' x g]; auto. cbn [Tptp.pr]. destruct (Bool.eqb q q'); eauto. }
  destruct D as [D|[y D]]; rewrite D; cbn; eauto.
Qed.
Lemma PR_calm q s L f s' l : PR q s L f s' l -> calm L.
Proof. intros [n H]. specialize (H n (le_n n)). unfold rest_body in H. destruct L as [|[z []] L]; cbn; auto; discriminate H. Qed.
Lemma quant_read q x f : tail_ok f -> forall s r l sk, inv s -> (forall y, In y (free (Qu q x (norm f))) -> usable s y) -> stop r -> quiet l -> Lex false r l ->
  exists L s', Lex sk (pr_qvar vsort x ++ pr (Tail q) f ++ r) L /\ PQ q s L (ren (rho s') (Qu q x (norm f))) s' l /\ post s s' (vars (Qu q x (norm f))).
Proof.
  intros Ht s r l sk Hs Hu Hr Hq Hl.
  set (s0 := set_bank s (push_env (bank s))). assert (I0 : inv s0) by (apply inv_env; auto).
  assert (St : stop (pr (Tail q) f ++ r)) by (destruct (tail_first q f r) as (c & y & -> & [-> | ->]); reflexivity).
  (* the tokens behind the variable *)
  assert (HL1 : exists L1, Lex false (pr (Tail q) f ++ r) L1 /\ calm L1).
  { assert (K : exists s1, inv s1 /\ (forall y, In y (free (norm f)) -> usable s1 y)).
    { destruct (qvar_read x s0 [] [] false I0 I I) as (L & s1 & _ & _ & P1). { exists 1. reflexivity. }
      exists s1. split; [apply P1|]. intros y Hy. destruct (Nat.eq_dec y x) as [->|N]; [right; apply P1; cbn; auto|]. eapply usable_le; [apply P1|].
      destruct (Hu y) as [U|U]; [cbn; apply in_in_remove; auto|left; auto|right; auto]. }
    destruct K as (s1 & K1 & K2). destruct (Ht q s1 r l K1 K2 Hr Hq Hl) as (L1 & s2 & H1 & H2 & _). exists L1. split; auto. eapply PR_calm; eauto. }
  destruct HL1 as (L1 & HL1 & HC1).
  destruct (qvar_read x s0 _ L1 sk I0 St HC1 HL1) as (L & s1 & H1 & [n0 H2] & P1).
  destruct (Ht q s1 r l) as (L1' & s2 & H3 & [n1 H4] & P2); auto.
  { apply P1. } { intros y Hy. destruct (Nat.eq_dec y x) as [->|N]; [right; apply P1; cbn; auto|]. eapply usable_le; [apply P1|].
      destruct (Hu y) as [U|U]; [cbn; apply in_in_remove; auto|left; auto|right; auto]. }
  assert (L1' = L1) as ->. { apply lex_tokenize in HL1, H3. congruence. }
  pose proof (post_trans _ _ _ _ _ _ _ P1 P2) as P3.
  set (s3 := set_bank s2 (pop_env (bank s2))).
  assert (Ev : venv (bank s2) = None :: venv (bank s)) by (apply P3).
  assert (Es3 : s3 = set_bank s2 (set_ext (bank s2) (ext (bank s2)) (venv (bank s)))) by (unfold s3, pop_env; rewrite Ev; auto).
  exists L, s3. split; [auto|]. split.
  - exists (S (max n0 n1)). fuel n. rewrite parse_q_S. unfold q_body. fold s0. rewrite H2 by lia. cbn [bind]. rewrite H4 by lia. cbn [bind ren]. fold s3.
    assert (Er : forall y, rho s3 y = rho s2 y) by (intros; rewrite Es3; reflexivity).
    f_equal. f_equal.
    + rewrite Er. symmetry. apply rho_le; [apply P2|apply P1; cbn; auto].
    + rewrite Es3. reflexivity.
  - rewrite Es3. destruct P3 as (A & (B1 & B2 & B3) & C). split; [apply inv_env; auto|]. split; [|exact C]. split; [reflexivity|]. split; cbn; auto.
Qed.

Theorem fm_read f : wf kind pname f -> plain_ok f /\ chain_ok f /\ tail_ok f.
Proof.
  induction f as [p a b|f IH|o f IHf g IHg|q x f IH]; intros W.
  - assert (P : plain_ok (Lit p a b)).
    { split; [|apply lit_read; auto]. cbn [Tptp.pr]. unfold pr_lit.
      assert (Sa : shape a /\ shape b).
      { assert (T : forall t, truth_value t -> shape t).
        { intros t [-> | ->]; apply atom_shape; [apply ttrue_atom|apply tfalse_atom]. }
        inversion W; subst; split; auto using fterm_shape, atom_shape. }
      assert (Sx : forall z u v, eqn_alloc true a b = (z, u, v) -> shape u /\ shape v).
      { intros z u v. unfold eqn_alloc. destruct (tm_eqb a tfalse), (tm_eqb b tfalse); repeat (destruct (tm_eqb _ _));
          intros E; inversion E; subst; split; try tauto; apply atom_shape, ttrue_atom. }
      destruct (eqn_alloc true a b) as [[z u] v]. destruct (Sx z u v eq_refl) as [Su Sv]. destruct (tm_eqb v ttrue).
      - destruct (xorb z (negb p)); [apply tm_opens; auto|reflexivity].
      - apply opens_app, tm_opens; auto. }
    split; [auto|]. split; [apply plain_chain; auto|]. intros q s r l. apply plain_tail; auto. discriminate.
  - inversion W; subst. destruct (IH H0) as ((Ho & Hp) & _).
    assert (P : plain_ok (Not f)).
    { split; [reflexivity|]. apply (neg_reads ("("%char :: pr Plain f ++ [")"%char])); [reflexivity|]. apply paren_read; auto. }
    split; [auto|]. split; [apply plain_chain; auto|]. intros q s r l. apply plain_tail; auto. discriminate.
  - inversion W; subst. destruct (IHf H1) as ((Hof & Hpf) & (Hocf & Hcf) & _), (IHg H3) as ((Hog & Hpg) & _).
    assert (C : o = Or -> forall s r l sk, inv s -> (forall y, In y (free (norm (Bin o f g))) -> usable s y) -> stop r -> quiet l -> Lex false r l ->
      exists L s', Lex sk (pr Chain f ++ str "|" ++ pr Plain g ++ r) L /\ (exists f0 s0 l0, PL s L f0 s0 l0 /\ Steps f0 s0 l0 (ren (rho s') (norm (Bin o f g))) s' l) /\ post s s' (vars (norm (Bin o f g)))).
    { intros -> s r l sk Hs Hu Hr Hq Hl. cbn [norm free vars] in *.
      assert (Huf : forall y, In y (free (norm f)) -> usable s y) by (intros; apply Hu, in_app_iff; auto).
      assert (Hug : forall y, In y (free (norm g)) -> usable s y) by (intros; apply Hu, in_app_iff; auto).
      destruct (Hpg s r l false Hs Hug Hr Hq Hl) as (L2 & sx & Hlex2 & _).
      pose proof (op_lex Or false _ _ (opens_app _ r Hog) Hlex2) as Hlo.
      destruct (Hcf s _ _ sk Hs Huf (op_stop Or _) (op_quiet Or false L2) Hlo) as (L & s1 & E1 & (f0 & s0 & l0 & E2 & E3) & P1).
      destruct (Hpg s1 r l false) as (L2' & s2 & Hlex2' & E4 & P2); auto; [apply P1|intros; eapply usable_le; [apply P1|auto]|].
      assert (L2' = L2) as ->. { apply lex_tokenize in Hlex2, Hlex2'. congruence. }
      exists L, s2. split; [auto|]. split; [|eapply post_trans; eauto].
      exists f0, s0, l0. split; auto. cbn [ren]. rewrite (ren_le s1 s2 (norm f)); [|apply P2|apply P1]. eapply steps_snoc; eauto. }
    assert (P : plain_ok (Bin o f g)).
    { split; [destruct o; reflexivity|]. destruct o; try (
        intros s r l sk Hs Hu Hr Hq Hl; cbn [norm free vars] in *;
        assert (Huf : forall y, In y (free (norm f)) -> usable s y) by (intros; apply Hu, in_app_iff; auto);
        assert (Hug : forall y, In y (free (norm g)) -> usable s y) by (intros; apply Hu, in_app_iff; auto);
        pose proof (lex_close false _ _ Hl) as Hl';
        destruct (Hpg s (")"%char :: r) ((false, CloseBracket) :: l) false Hs Hug eq_refl (close_quiet _ _) Hl') as (L2 & sx & Hlex2 & _);
        match goal with |- context [Bin ?oo (norm f)] => pose proof (op_lex oo false _ _ (opens_app _ (")"%char :: r) Hog) Hlex2) as Hlo;
          destruct (Hpf s _ _ false Hs Huf (op_stop oo _) (op_quiet oo false L2) Hlo) as (L & s1 & E1 & E2 & P1) end;
        destruct (Hpg s1 (")"%char :: r) ((false, CloseBracket) :: l) false) as (L2' & s2 & Hlex2' & E4 & P2); auto; [apply P1|intros; eapply usable_le; [apply P1|auto]|reflexivity|apply close_quiet|];
        (assert (L2' = L2) as -> by (apply lex_tokenize in Hlex2, Hlex2'; congruence));
        exists ((sk, OpenBracket) :: L), s2; split; [cbn [Tptp.pr app str list_ascii_of_string] in *; rewrite <- ?app_assoc in *; cbn [app] in *; rewrite <- ?app_assoc in *; apply lex_open; exact E1|];
        split; [|eapply post_trans; eauto];
        cbn [ren]; rewrite (ren_le s1 s2 (norm f)); [|apply P2|apply P1];
        eapply lit_of_fm; [eapply fm_of_bin; eauto|eapply PL_bare; eauto]).
      intros s r l sk Hs Hu Hr Hq Hl. pose proof (lex_close false _ _ Hl) as Hl'.
      destruct (C eq_refl s (")"%char :: r) ((false, CloseBracket) :: l) false Hs Hu eq_refl (close_quiet _ _) Hl') as (L & s' & E1 & (f0 & s0 & l0 & E2 & E3) & E4).
      exists ((sk, OpenBracket) :: L), s'. split; [cbn [Tptp.pr app str list_ascii_of_string] in *; rewrite <- ?app_assoc in *; cbn [app] in *; rewrite <- ?app_assoc in *; apply lex_open; exact E1|].
      split; [|auto]. eapply lit_of_fm; [eapply fm_of_chain; eauto|eapply PL_bare; eauto]. }
    split; [auto|]. split; [|intros q s r l; apply plain_tail; auto; discriminate].
    destruct o; try (apply plain_chain; auto; fail). split; [cbn [Tptp.pr]; apply opens_app; auto|].
    intros s r l sk Hs Hu Hr Hq Hl. destruct (C eq_refl s r l sk Hs Hu Hr Hq Hl) as (L & s' & E1 & E2 & E3).
    exists L, s'. split; [|auto]. cbn [Tptp.pr]. rewrite <- !app_assoc. exact E1.
  - inversion W; subst. destruct (IH H0) as (_ & _ & Ht).
    assert (P : plain_ok (Qu q x f)).
    { split; [destruct q; reflexivity|]. intros s r l sk Hs Hu Hr Hq Hl. destruct (quant_read q x f Ht s r l false Hs Hu Hr Hq Hl) as (L & s' & E1 & [n0 E2] & E3).
      exists ((sk, if q then Exclamation else QuestionMark) :: (false, OpenSquare) :: L), s'. split; [|split; [|auto]].
      - cbn [Tptp.pr]. destruct q; cbn [app str list_ascii_of_string]; rewrite <- app_assoc; (eapply lex_tok; [first [apply sc_all|apply sc_quest]|]); (eapply lex_tok; [apply sc_osq|]); auto.
      - exists (S n0). fuel n. rewrite parse_lit_S. destruct q; cbn [lit_body accept tok_eqb]; apply E2; lia. }
    split; [auto|]. split; [apply plain_chain; auto|]. intros q' s r l Hs Hu Hr Hq Hl. destruct (Bool.bool_dec q' q) as [->|N].
    + destruct (quant_read q x f Ht s r l true Hs Hu Hr Hq Hl) as (L & s' & E1 & [n0 E2] & E3).
      exists ((false, Comma) :: L), s'. split; [|split; [|auto]].
      * cbn [Tptp.pr]. rewrite Bool.eqb_reflx. cbn [app str list_ascii_of_string]. rewrite <- app_assoc. eapply lex_tok; [apply sc_comma|]. eapply lex_skip; [|exact E1].
        apply sc_space. pose proof (var_opens x) as O. unfold pr_qvar. destruct (opens_cons _ O) as (c & y & -> & Hc). cbn. apply opener_nospace; auto.
      * exists n0. intros n Hn. cbn [rest_body]. apply E2; lia.
    + apply plain_tail; auto. intros x' g' E. inversion E; subst. easy.
Qed.
End Main.
