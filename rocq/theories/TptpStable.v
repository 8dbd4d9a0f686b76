(** * What the reader produces can be printed (proofs for C62) *)
From Coq Require Import Ascii String List Arith Bool Lia.
From Verif Require Import Tptp TptpSpec TptpLex TptpFuel TptpProofs TptpMain.
Import ListNotations.
Local Open Scope string_scope.
Local Open Scope nat_scope.
Local Open Scope list_scope.

(** ** Tokens *)
Definition tok_ok (t : tok) : Prop :=
  match t with
  | Identifier s => exists c r, s = c :: r /\ isstartidchar c = true /\ forallb isidchar r = true
  | SemIdent s => exists r, s = "$"%char :: r /\ r <> [] /\ forallb isidchar r = true /\ s <> str "$let" /\ s <> str "$ite"
  | SQStr s => exists b, s = squote :: b ++ [squote] /\ body squote b
  | Str s => exists b, s = dquote :: b ++ [dquote] /\ body dquote b
  | PosInt s => s <> [] /\ forallb isdigit s = true
  | _ => True
  end.
Definition all_ok (l : list token) : Prop := Forall (fun t => tok_ok (snd t)) l.
Lemma scan_str_body d : d <> bs -> forall inp e cur acc l r, scan_str d e cur inp acc = Some (l, r) -> (e = true -> cur = bs) ->
  exists b, body d b /\ l = rev acc ++ (if e then bs :: b else b) ++ [d].
Proof.
  intros Hd. induction inp as [|c inp IH]; cbn [scan_str]; intros e cur acc l r H He; [discriminate|].
  destruct e.
  - rewrite (He eq_refl) in H. cbn -[scan_str] in H. apply IH in H as (b & Hb & ->); [|discriminate]. exists b. split; auto. cbn [rev app]; rewrite <- ?app_assoc; auto.
  - cbn [negb andb] in H. destruct (is c d) eqn:E.
    + apply is_eq in E as ->. inversion H; subst. exists []. split; [constructor|]. cbn. auto.
    + destruct (negb (isprint c) && (code c <=? 127)) eqn:Ep; [discriminate|]. destruct (is c backslash) eqn:Eb.
      * apply is_eq in Eb as ->. apply IH in H as (b & Hb & ->); [|auto]. exists (bs :: bs :: b). split; [apply b_pair; auto|]. cbn [rev app]; rewrite <- ?app_assoc; auto.
      * apply IH in H as (b & Hb & ->); [|discriminate]. exists (c :: b). split.
        -- apply b_char; auto; [apply is_neq; auto|apply is_neq; auto|]. apply andb_false_iff in Ep as [Ep|Ep]; [left; apply negb_false_iff; auto|right; apply Nat.leb_gt; auto].
        -- cbn [rev app]; rewrite <- ?app_assoc; auto.
Qed.
Lemma scan_sym_tok c r t r' : scan_sym c r = STok t r' -> tok_ok t.
Proof.
  unfold scan_sym. intros H. destruct c as [[] [] [] [] [] [] [] []]; try discriminate H; try (inversion H; subst; exact I);
  repeat match type of H with context [match ?x with _ => _ end] => destruct x; try discriminate H; try (inversion H; subst; exact I) end.
Qed.
Lemma scan_tok_ok s t r : scan_token s = STok t r -> tok_ok t.
Proof.
  destruct s as [|c s]; cbn [scan_token]; [discriminate|].
  destruct (isspace c); [discriminate|].
  destruct (isstartidchar c) eqn:Ei.
  { cbn [span]. assert (isidchar c = true) as -> by (unfold isstartidchar, isidchar in *; destruct (isalpha c), (isdigit c); cbn in *; auto).
    destruct (span isidchar s) as [a b] eqn:E. intros H; inversion H; subst. exists c, a. split; auto. split; auto. eapply span_all; eauto. }
  destruct (isdigit c) eqn:Ed.
  { cbn [span]. rewrite Ed. destruct (span isdigit s) as [a b] eqn:E. intros H; inversion H; subst. cbn. rewrite Ed. split; [discriminate|]. eapply span_all; eauto. }
  destruct (isstartcomment c); [discriminate|].
  destruct (is c "/" && _). { destruct (scan_C_comment (c :: s)); discriminate. }
  destruct (is c dquote || is c squote) eqn:Eq.
  { destruct (scan_str c false c s [c]) as [[l r']|] eqn:E; [|discriminate]. intros H; inversion H; subst.
    apply orb_true_iff in Eq as [Eq|Eq]; apply is_eq in Eq as ->;
      (apply scan_str_body in E as (b & Hb & ->); [|discriminate|discriminate]); cbn; exists b; split; auto. }
  destruct (is c "$" && _) eqn:E1.
  { destruct s as [|d s]; [rewrite andb_false_r in E1; discriminate|]. apply andb_true_iff in E1 as [Ec Ed']. apply is_eq in Ec as ->.
    cbn [span]. rewrite Ed'. destruct (span isidchar s) as [a b] eqn:E. intros H. inversion H; subst; clear H.
    match goal with |- context [if ?x then _ else _] => destruct x eqn:T1 end; [exact I|]. match goal with |- context [if ?x then _ else _] => destruct x eqn:T2 end; [exact I|]. apply text_eqb_neq in T1, T2.
    exists (d :: a). split; auto. split; [discriminate|]. split; [cbn; rewrite Ed'; eapply span_all; eauto|]. split; auto. }
  intros H. eapply scan_sym_tok; eauto.
Qed.
Lemma tokens_ok : forall n sk s l, tokens n sk s = Tokens l -> all_ok l.
Proof.
  induction n as [|n IH]; intros sk s l; cbn [tokens]; [discriminate|]. destruct (scan_token s) as [|r|t r|] eqn:E; try discriminate.
  - intros H; inversion H; constructor.
  - apply IH.
  - destruct (tokens n false r) as [l'| |] eqn:E'; cbn; try discriminate. intros H; inversion H; subst. constructor; [apply scan_tok_ok in E; auto|]. eapply IH; eauto.
Qed.
Lemma zeros_numeral d : d <> [] -> forallb isdigit d = true -> numeral (skip_zeros d).
Proof.
  induction d as [|c d IH]; [easy|]. intros _ H. cbn [forallb] in H. apply andb_true_iff in H as [Hc Hd].
  destruct (ascii_dec c "0"%char) as [->|N].
  - destruct d as [|c' d]; [constructor|]. cbn -[forallb]. apply IH; auto. discriminate.
  - assert (skip_zeros (c :: d) = c :: d) as ->. { destruct c as [[] [] [] [] [] [] [] []]; try reflexivity. now contradiction N. }
    constructor; auto.
Qed.
Lemma parse_sym_ok l f k l1 : all_ok l -> parse_sym l = Some (f, k, l1) ->
  all_ok l1 /\ (k = KNum -> name_ok f 0) /\ (k = KFun -> word f 0 \/ capital f /\ exists z l2, l1 = (z, OpenBracket) :: l2).
Proof.
  intros Ha H. destruct l as [|[z t] l]; [discriminate|]. inversion Ha as [|? ? Ht Hl]; subst. cbn in Ht. cbn [parse_sym] in H.
  assert (N : forall neg d, d <> [] /\ forallb isdigit d = true -> name_ok (normalize_int neg d) 0).
  { intros neg d [D1 D2]. pose proof (zeros_numeral d D1 D2) as Z. unfold normalize_int. destruct neg; cbn [andb]; [|apply k_num; auto].
    destruct (text_eqb (skip_zeros d) (str "0")) eqn:E; cbn [negb]; [apply k_num; auto|]. apply k_neg; auto. apply text_eqb_neq; exact E. }
  destruct t; try discriminate H.
  - destruct Ht as (c & r & -> & Hc & Hr). set (cap := isupper c || is c "_") in *.
    destruct cap eqn:Ecap.
    + assert (Hcap : isupper c = true \/ c = "_"%char) by (subst cap; apply orb_true_iff in Ecap as [E|E]; [auto|right; apply is_eq; auto]).
      destruct l as [|[z2 t2] l2].
      { cbn in H. inversion H; subst. split; auto. split; discriminate. }
      assert (O : (exists l3, (z2, t2) :: l2 = (z2, OpenBracket) :: l3 /\ k = KFun /\ f = c :: r /\ l1 = (z2, t2) :: l2) \/ (k = KVar /\ l1 = (z2, t2) :: l2)).
      { destruct t2; cbn in H; inversion H; subst; eauto 8. }
      destruct O as [(l3 & O1 & -> & -> & ->)|[-> ->]]; (split; [auto|]); (split; [discriminate|]); [|discriminate].
      intros _. right. split; [exists c, r; auto|]. eauto.
    + cbn in H. inversion H; subst. split; auto. split; [discriminate|]. intros _. left. constructor; auto. subst cap. apply orb_false_iff in Ecap as [E1 E2].
      unfold isstartidchar, isalpha in Hc. rewrite E1, E2, orb_false_r in Hc. auto.
  - destruct Ht as (r & -> & H1 & H2 & H3 & H4). destruct (text_eqb ("$"%char :: r) (str "$distinct")) eqn:E; [discriminate|]. apply text_eqb_neq in E.
    inversion H; subst. split; auto. split; [discriminate|]. intros _. left. apply w_dollar; auto. intros [I|[I|[I|[]]]]; congruence.
  - inversion H; subst. split; auto. split; [|discriminate]. intros _. destruct Ht as (b & -> & Hb). apply k_object; auto.
  - inversion H; subst. split; auto. split; [discriminate|]. intros _. left. destruct Ht as (b & -> & Hb). apply w_quoted; auto.
  - destruct (more_number l); [discriminate|]. inversion H; subst. split; auto. split; [|discriminate]. intros _. auto.
  - destruct l as [|[[] []] l2]; try discriminate H. inversion Hl as [|? ? Ht' Hl']; subst. cbn in Ht'. destruct (more_number l2); [discriminate|]. inversion H; subst. split; auto. split; [|discriminate]. intros _; auto.
  - destruct l as [|[[] []] l2]; try discriminate H. inversion Hl as [|? ? Ht' Hl']; subst. cbn in Ht'. destruct (more_number l2); [discriminate|]. inversion H; subst. split; auto. split; [|discriminate]. intros _; auto.
Qed.
Lemma word_any f n : word f 0 -> word f n.
Proof. intros W. inversion W; subst; [constructor; auto|lia|apply w_dollar; auto|apply w_quoted; auto]. Qed.
Lemma parse_sort_ok l t l1 : all_ok l -> parse_sort l = Some (t, l1) -> all_ok l1 /\ word t 0.
Proof.
  intros Ha. unfold parse_sort. destruct (parse_sym l) as [[[f k] l2]|] eqn:E; [|discriminate]. apply parse_sym_ok in E as (E1 & E2 & E3); auto. destruct k; try discriminate.
  destruct (E3 eq_refl) as [W|[C (z & l3 & ->)]]; [|discriminate]. intros H. destruct l2 as [|[z []] l2]; inversion H; subst; auto.
Qed.

(** ** States *)
Definition readable (p : text) (n : nat) : Prop := name_ok p n \/ n = 0 /\ capital p.
Record good (s : pstate) : Prop := mkgood {
  g_names : forall f p a k, lookup f (sig s) = Some (p, a, k) -> raw p = f /\ readable p a;
  g_true : lookup (str "$true") (sig s) = Some (str "$true", 0, Some true);
  g_false : lookup (str "$false") (sig s) = Some (str "$false", 0, Some true);
  g_bank : bank_ok (bank s);
  g_sorts : forall t v, In v (stacks (bank s) t) -> t = default_sort \/ word t 0 }.
Definition sle (s s' : pstate) : Prop := forall f p a k, lookup f (sig s) = Some (p, a, k) -> exists k', lookup f (sig s') = Some (p, a, k') /\ (k = None \/ k' = k).
Lemma sle_refl s : sle s s. Proof. intros f p a k H. eauto. Qed.
Lemma sle_trans s1 s2 s3 : sle s1 s2 -> sle s2 s3 -> sle s1 s3.
Proof. intros H1 H2 f p a k H. apply H1 in H as (k' & H & K). apply H2 in H as (k'' & H & K'). exists k''. split; auto. destruct K as [->|<-]; auto. Qed.
Inductive fun_term (s : pstate) : tm -> Prop :=
| ft_var x : fun_term s (TV x)
| ft_app f p args : lookup f (sig s) = Some (p, length args, Some false) -> Forall (fun_term s) args -> fun_term s (TF f args).
Definition head_term (s : pstate) (t : tm) : Prop :=
  match t with TV _ => True | TF f args => (exists p k, lookup f (sig s) = Some (p, length args, k)) /\ Forall (fun_term s) args end.
Inductive atom_term (s : pstate) : tm -> Prop := at_app f p args : lookup f (sig s) = Some (p, length args, Some true) -> Forall (fun_term s) args -> atom_term s (TF f args).
Inductive fo (s : pstate) : fm -> Prop :=
| fo_eq pos l r : fun_term s l -> fun_term s r -> fo s (Lit pos l r)
| fo_atom pos a : atom_term s a -> fo s (Lit pos a ttrue)
| fo_not f : fo s f -> fo s (Not f)
| fo_bin o f g : fo s f -> fo s g -> fo s (Bin o f g)
| fo_qu q x f : fo s f -> fo s (Qu q x f).
Lemma fun_le s s' t : sle s s' -> fun_term s t -> fun_term s' t.
Proof.
  intros L. induction t as [x|f args IH] using tm_ind'; intros H; [constructor|]. inversion H as [|? p ? H1 H2]; subst. apply L in H1 as (k & H1 & [K|K]); [discriminate|subst k].
  econstructor; eauto. rewrite Forall_forall in *. auto.
Qed.
Lemma funs_le s s' l : sle s s' -> Forall (fun_term s) l -> Forall (fun_term s') l.
Proof. intros L. apply Forall_impl. intros t. apply fun_le; auto. Qed.
Lemma atom_le s s' t : sle s s' -> atom_term s t -> atom_term s' t.
Proof. intros L [f p args H1 H2]. apply L in H1 as (k & H1 & [K|K]); [discriminate|subst k]. econstructor; eauto using funs_le. Qed.
Lemma fo_le s s' f : sle s s' -> fo s f -> fo s' f.
Proof. intros L H. induction H; [apply fo_eq|apply fo_atom|apply fo_not|apply fo_bin|apply fo_qu]; eauto using fun_le, atom_le. Qed.

Definition keeps {A} (Q : A -> pstate -> Prop) (p : parser A) : Prop :=
  forall s l a s' l', good s -> all_ok l -> p s l = Ok a s' l' -> good s' /\ sle s s' /\ all_ok l' /\ Q a s'.
Lemma bank_ok_ext b e v : bank_ok b -> bank_ok (set_ext b e v).
Proof. intros [A B C D]. constructor; auto. Qed.
Lemma fresh_sorts b t v b' (W : text -> Prop) : get_fresh b t = (v, b') -> W t -> (forall u w, In w (stacks b u) -> W u) -> forall u w, In w (stacks b' u) -> W u.
Proof.
  unfold get_fresh. intros H Ht Hb. destruct (_ <=? _); inversion H; subst; cbn; auto. intros u w. unfold upd. destruct (text_eqb t u) eqn:E; eauto. apply text_eqb_eq in E as <-. auto.
Qed.
Lemma good_bank s b : good s -> bank_ok b -> (forall t v, In v (stacks b t) -> t = default_sort \/ word t 0) -> good (set_bank s b).
Proof. intros [A B C D E] Hb Hs. constructor; auto. Qed.
Lemma alloc_good s n v b : good s -> var_alloc (bank s) n = (v, b) -> good (set_bank s b).
Proof.
  intros G. pose proof G as [A B C D E]. unfold var_alloc. destruct (lookup n (ext (bank s))) as [[w t]|].
  - intros H; inversion H; subst. apply good_bank; auto.
  - destruct (get_fresh (bank s) default_sort) as [w b'] eqn:F. intros H; inversion H; subst. apply good_bank; auto.
    + apply bank_ok_ext. eapply fresh_ok; eauto.
    + cbn. eapply fresh_sorts; eauto.
Qed.
Lemma alloc_sort_good s n t v b : good s -> word t 0 -> var_alloc_sort (bank s) n t = (v, b) -> good (set_bank s b).
Proof.
  intros G W. pose proof G as [A B C D E]. unfold var_alloc_sort. destruct (lookup n (ext (bank s))) as [[w u]|].
  - destruct (text_eqb u t); [intros H; inversion H; subst; apply good_bank; auto|].
    destruct (get_fresh (bank s) t) as [w' b'] eqn:F. intros H; inversion H; subst. apply good_bank; auto.
    + apply bank_ok_ext. eapply fresh_ok; eauto.
    + cbn. eapply fresh_sorts; eauto.
  - destruct (get_fresh (bank s) t) as [w b'] eqn:F. intros H; inversion H; subst. apply good_bank; auto.
    + apply bank_ok_ext. eapply fresh_ok; eauto.
    + cbn. eapply fresh_sorts; eauto.
Qed.
Lemma env_good s e v : good s -> good (set_bank s (set_ext (bank s) e v)).
Proof. intros [A B C D E]. constructor; auto. apply bank_ok_ext; auto. Qed.
Lemma sle_bank s b : sle s (set_bank s b).
Proof. intros f p a k H. exists k. split; auto. Qed.
Lemma insert_good s f n s' : good s -> readable f n -> sig_insert s f n = Some s' -> good s' /\ sle s s' /\ exists p k, lookup (raw f) (sig s') = Some (p, n, k).
Proof.
  intros [A B C D E] R. unfold sig_insert. destruct (lookup (raw f) (sig s)) as [[[p a] k]|] eqn:Ef.
  - destruct (a =? n) eqn:En; [|discriminate]. apply Nat.eqb_eq in En as ->. intros H; inversion H; subst. split; [constructor; auto|]. split; [apply sle_refl|]. eauto.
  - intros H; inversion H; subst. split; [|split].
    + constructor; cbn -[str]; auto.
      * intros g p a k. destruct (text_eqb g (raw f)) eqn:Eg; [|apply A]. apply text_eqb_eq in Eg as ->. intros W; inversion W; subst. auto.
      * destruct (text_eqb (str "$true") (raw f)) eqn:Eg; auto. apply text_eqb_eq in Eg. congruence.
      * destruct (text_eqb (str "$false") (raw f)) eqn:Eg; auto. apply text_eqb_eq in Eg. congruence.
    + intros g p a k Hg. exists k. cbn. destruct (text_eqb g (raw f)) eqn:Eg; auto. apply text_eqb_eq in Eg as ->. congruence.
    + cbn. rewrite text_eqb_refl. eauto.
Qed.
Lemma declare_good s f p n k b : good s -> lookup f (sig s) = Some (p, n, k) -> k = None \/ k = Some b -> 
  good (declare s f b) /\ sle s (declare s f b) /\ lookup f (sig (declare s f b)) = Some (p, n, Some b).
Proof.
  intros [A B C D E] Hf Hk. unfold declare. rewrite Hf. split; [|split]; cbn -[str].
  - constructor; cbn -[str]; auto.
    + intros g q a k'. rewrite lookup_assign. destruct (text_eqb g f) eqn:Eg; [|apply A]. apply text_eqb_eq in Eg as ->. intros W; inversion W; subst. eapply A; eauto.
    + rewrite lookup_assign. destruct (text_eqb (str "$true") f) eqn:Eg; auto. apply text_eqb_eq in Eg as <-. rewrite B in Hf. inversion Hf; subst. destruct Hk; congruence.
    + rewrite lookup_assign. destruct (text_eqb (str "$false") f) eqn:Eg; auto. apply text_eqb_eq in Eg as <-. rewrite C in Hf. inversion Hf; subst. destruct Hk; congruence.
  - intros g q a k' Hg. cbn. rewrite lookup_assign. destruct (text_eqb g f) eqn:Eg; [|eauto]. apply text_eqb_eq in Eg as ->. rewrite Hf in Hg. inversion Hg; subst. exists (Some b). split; auto.
    destruct Hk as [->| ->]; auto.
  - rewrite lookup_assign, text_eqb_refl. auto.
Qed.
Lemma subterm_good t s s' : good s -> head_term s t -> subterm_check t s = Some s' -> good s' /\ sle s s' /\ fun_term s' t.
Proof.
  intros G Ht. destruct t as [x|f args]; cbn [subterm_check].
  - intros H; inversion H; subst. split; auto. split; [apply sle_refl|constructor].
  - destruct Ht as [(p & k & Hf) HF]. intros H. assert (Hk : k = None \/ k = Some false). { unfold role in H. rewrite Hf in H. destruct k as [[]|]; auto. discriminate. }
    assert (s' = declare s f false) as ->. { unfold role in H. rewrite Hf in H. destruct Hk as [-> | ->]; inversion H; auto. }
    destruct (declare_good s f p _ k false G Hf Hk) as (A & B & C). split; auto. split; auto. econstructor; eauto using funs_le.
Qed.

Lemma tm_keeps pa : keeps (fun l s => Forall (fun_term s) l) pa -> keeps (fun t s => head_term s t) (tm_body pa).
Proof.
  intros Hpa s l t s' l' G Ha H. unfold tm_body in H. destruct (parse_sym l) as [[[f k] l1]|] eqn:E; [|discriminate]. apply parse_sym_ok in E as (O1 & O2 & O3); auto.
  assert (V : k = KVar -> good s' /\ sle s s' /\ all_ok l' /\ head_term s' t).
  { intros ->.
    assert (W : (exists v b, var_alloc (bank s) f = (v, b) /\ t = TV v /\ s' = set_bank s b /\ l' = l1) \/
      (exists z l2 u l3 v b, l1 = (z, Colon) :: l2 /\ parse_sort l2 = Some (u, l3) /\ var_alloc_sort (bank s) f u = (v, b) /\ t = TV v /\ s' = set_bank s b /\ l' = l3)).
    { destruct l1 as [|[z tk] l2]; [destruct (var_alloc (bank s) f) as [v b]; inversion H; subst; left; eauto 8|].
      destruct tk; try (destruct (var_alloc (bank s) f) as [v b]; inversion H; subst; left; eauto 8; fail).
      destruct (parse_sort l2) as [[u l3]|] eqn:E2; [|discriminate]. destruct (var_alloc_sort (bank s) f u) as [v b] eqn:E3. inversion H; subst. right. eauto 14. }
    destruct W as [(v & b & W1 & -> & -> & ->)|(z & l2 & u & l3 & v & b & -> & W1 & W2 & -> & -> & ->)].
    - split; [eapply alloc_good; eauto|]. split; [apply sle_bank|]. split; [auto|exact I].
    - inversion O1; subst. apply parse_sort_ok in W1 as [W1 W3]; auto. split; [eapply alloc_sort_good; eauto|]. split; [apply sle_bank|]. split; [auto|exact I]. }
  assert (F : k <> KVar -> good s' /\ sle s s' /\ all_ok l' /\ head_term s' t).
  { intros Hk. set (r := match l1 with
            | (_, OpenBracket) :: l2 => match k with KNum => Err | _ => match l2 with (_, CloseBracket) :: l3 => Ok [] s l3 | _ => pa s l2 end end
            | _ => Ok [] s l1 end) in *.
    assert (Hr : exists args s1, r = Ok args s1 l' /\ sig_insert s1 f (length args) = Some s' /\ t = TF (raw f) args).
    { assert (H' : bind r (fun args s l => match sig_insert s f (length args) with Some s => Ok (TF (raw f) args) s l | None => Err end) = Ok t s' l') by (subst r; destruct k; [easy| |]; exact H).
      destruct r as [args s1 l2| |]; try discriminate H'. cbn in H'. destruct (sig_insert s1 f (length args)) eqn:Es; inversion H'; subst. eauto. }
    destruct Hr as (args & s1 & Hr & Hi & ->).
    assert (R : good s1 /\ sle s s1 /\ all_ok l' /\ Forall (fun_term s1) args /\ readable f (length args)).
    { assert (D : (args = [] /\ s1 = s /\ all_ok l' /\ (k = KNum \/ readable f 0)) \/ (k = KFun /\ exists z l2, l1 = (z, OpenBracket) :: l2 /\ pa s l2 = Ok args s1 l')).
      { subst r. assert (KF : k = KFun -> readable f 0) by (intros K; destruct (O3 K) as [W|[W _]]; [left; apply k_word; auto|right; auto]).
        assert (KD : k = KNum \/ readable f 0) by (destruct k; [easy|right; auto|auto]).
        destruct l1 as [|[z tk] l2]; [inversion Hr; subst; left; auto|]. inversion O1; subst.
        destruct tk; try (inversion Hr; subst; left; auto; fail). destruct k; [easy| |discriminate].
        destruct l2 as [|[z2 tk2] l3]; [right; eauto|]. destruct tk2; try (right; eauto; fail). inversion Hr; subst. left. repeat split; auto. inversion H3; auto. }
      destruct D as [(-> & -> & D1 & D2)|(-> & z & l2 & -> & D1)].
      - split; auto. split; [apply sle_refl|]. split; auto. split; [constructor|]. destruct D2 as [->|D2]; auto. left; auto.
      - inversion O1; subst. pose proof (Hpa _ _ _ _ _ G H3 D1) as (P1 & P2 & P3 & P4). split; auto. split; auto. split; auto. split; auto.
        destruct (O3 eq_refl) as [W|[C _]]; [left; apply k_word, word_any; auto|]. destruct args as [|u args]; [right; auto|]. left. apply k_word. destruct C as (c & r' & -> & C1 & C2). apply w_upper; auto. cbn; lia. }
    destruct R as (R1 & R2 & R3 & R4 & R5). destruct (insert_good _ _ _ _ R1 R5 Hi) as (I1 & I2 & I3).
    split; auto. split; [eapply sle_trans; eauto|]. split; auto. split; eauto using funs_le. }
  destruct k; [apply V; auto|apply F; discriminate|apply F; discriminate].
Qed.
Lemma args_keeps pt pa : keeps (fun t s => head_term s t) pt -> keeps (fun l s => Forall (fun_term s) l) pa -> keeps (fun l s => Forall (fun_term s) l) (args_body pt pa).
Proof.
  intros Ht Hp s l a s' l' G Ha H. unfold args_body in H. destruct (pt s l) as [t s1 l1| |] eqn:E; try discriminate. cbn in H.
  destruct (Ht _ _ _ _ _ G Ha E) as (A1 & A2 & A3 & A4). destruct (subterm_check t s1) as [s2|] eqn:E2; [|discriminate].
  destruct (subterm_good _ _ _ A1 A4 E2) as (B1 & B2 & B3). destruct l1 as [|[z tk] l2]; [discriminate|]. inversion A3; subst. destruct tk; try discriminate.
  - inversion H; subst. split; auto. split; [eapply sle_trans; eauto|]. split; auto.
  - destruct (pa s2 l2) as [ts s3 l3| |] eqn:E3; try discriminate. inversion H; subst. destruct (Hp _ _ _ _ _ B1 H3 E3) as (C1 & C2 & C3 & C4).
    split; auto. split; [eapply sle_trans; [eauto|eapply sle_trans; eauto]|]. split; auto. constructor; auto. eapply fun_le; eauto.
Qed.
Lemma tm_keep n : keeps (fun t s => head_term s t) (parse_tm n) /\ keeps (fun l s => Forall (fun_term s) l) (parse_args n).
Proof.
  induction n as [|n [IH1 IH2]]; [split; intros s l a s' l' _ _ H; discriminate|]. split; intros s l a s' l'.
  - rewrite parse_tm_S. apply tm_keeps; auto.
  - rewrite parse_args_S. apply args_keeps; auto.
Qed.
Definition isfo (f : fm) (s : pstate) : Prop := fo s f.
Lemma true_atom s : good s -> atom_term s ttrue.
Proof. intros G. econstructor; [apply g_true; auto|constructor]. Qed.
Lemma atom_keep n : keeps isfo (parse_atom n).
Proof.
  intros s l a s' l' G Ha H. rewrite parse_atom_eq in H. unfold atom_body in H. destruct (tm_keep n) as [T _].
  destruct (parse_tm n s l) as [u s1 l1| |] eqn:E; try discriminate. cbn [bind] in H. destruct (T _ _ _ _ _ G Ha E) as (A1 & A2 & A3 & A4).
  destruct (if tm_eqb u tfalse then _ else _) as [t pos] eqn:Et.
  assert (Ht : head_term s1 t). { destruct (tm_eqb u tfalse); inversion Et; subst; auto. pose proof (true_atom s1 A1) as W. inversion W; subst. split; [eauto|auto]. }
  assert (Q : forall p l2, all_ok l2 -> equation_body (parse_tm n) t s1 p l2 = Ok a s' l' -> good s' /\ sle s s' /\ all_ok l' /\ isfo a s').
  { intros p l2 Hl2. unfold equation_body. destruct (subterm_check t s1) as [s2|] eqn:E2; [|discriminate]. destruct (subterm_good _ _ _ A1 Ht E2) as (B1 & B2 & B3).
    destruct (parse_tm n s2 l2) as [v s3 l3| |] eqn:E3; try discriminate. destruct (T _ _ _ _ _ B1 Hl2 E3) as (C1 & C2 & C3 & C4). cbn [bind].
    destruct (subterm_check v s3) as [s4|] eqn:E4; [|discriminate]. destruct (subterm_good _ _ _ C1 C4 E4) as (D1 & D2 & D3). intros W; inversion W; subst.
    split; auto. split; [eauto using sle_trans|]. split; auto. constructor; auto. eapply fun_le; [|exact B3]. eauto using sle_trans. }
  destruct t as [x|f args].
  - cbn beta iota in H. destruct l1 as [|[z tk] l2]; [discriminate|]. inversion A3; subst. destruct tk; try discriminate; eapply Q; eauto.
  - destruct Ht as [(p & k & Hf) HF]. unfold role in H. rewrite Hf in H. destruct k as [[]|].
    + inversion H; subst. split; auto. split; auto. split; auto. apply fo_atom. econstructor; eauto.
    + destruct l1 as [|[z tk] l2]; [discriminate|]. inversion A3; subst. destruct tk; try discriminate; eapply Q; eauto.
    + destruct (declare_good s1 f p _ None true A1 Hf (or_introl eq_refl)) as (D1 & D2 & D3).
      assert (O : (exists z b l2, l1 = (z, b) :: l2 /\ exists q, equation_body (parse_tm n) (TF f args) s1 q l2 = Ok a s' l') \/ Ok (Lit pos (TF f args) ttrue) (declare s1 f true) l1 = Ok a s' l').
      { destruct l1 as [|[z tk] l2]; [auto|]. destruct tk; auto; left; eauto 8. }
      destruct O as [(z & b & l2 & -> & q & O)|O]; [inversion A3; subst; eapply Q; eauto|]. inversion O; subst. split; auto. split; [eauto using sle_trans|]. split; auto. apply fo_atom. econstructor; eauto using funs_le.
Qed.
Lemma accept_keep {A} t s l (k : pstate -> list token -> parsed A) a s' l' : all_ok l -> accept t s l k = Ok a s' l' -> exists l1, all_ok l1 /\ k s l1 = Ok a s' l'.
Proof. intros Ha H. apply accept_ok in H as (z & u & l1 & -> & _ & H). inversion Ha; subst. eauto. Qed.
Lemma fm_keep n : keeps isfo (parse_lit n) /\ (forall q, keeps isfo (parse_q n q)) /\
  (forall t o f s l a s' l', good s -> all_ok l -> fo s f -> parse_assoc n t o f s l = Ok a s' l' -> good s' /\ sle s s' /\ all_ok l' /\ fo s' a) /\ keeps isfo (parse_fm n).
Proof.
  induction n as [|n (IH1 & IH2 & IH3 & IH4)].
  { repeat split; intros; try (intros ? ? ? ? ? ? ? H; discriminate); discriminate. }
  split; [|split; [|split]].
  - intros s l a s' l' G Ha H. rewrite parse_lit_S in H. unfold lit_body in H. pose proof (atom_keep n) as AK.
    destruct l as [|[z tk] l1]; [eapply AK; eauto|]. pose proof Ha as Ha'. inversion Ha' as [|? ? Ht Hl]; subst.
    destruct tk; try (eapply AK; [exact G|exact Ha|exact H]).
    + destruct (bare l1); [discriminate|]. destruct (parse_fm n s l1) as [f s1 l2| |] eqn:E; try discriminate. cbn in H. destruct (IH4 _ _ _ _ _ G Hl E) as (B1 & B2 & B3 & B4).
      apply accept_keep in H as (l3 & H1 & H2); auto. inversion H2; subst. auto.
    + destruct (parse_lit n s l1) as [f s1 l2| |] eqn:E; try discriminate. cbn in H. inversion H; subst. destruct (IH1 _ _ _ _ _ G Hl E) as (B1 & B2 & B3 & B4). split; [auto|]. split; [auto|]. split; [auto|]. apply fo_not; auto.
    + apply accept_keep in H as (l3 & H1 & H2); [|exact Hl]. exact (IH2 _ _ _ _ _ _ G H1 H2).
    + apply accept_keep in H as (l3 & H1 & H2); [|exact Hl]. exact (IH2 _ _ _ _ _ _ G H1 H2).
  - intros q s l a s' l' G Ha H. rewrite parse_q_S in H. unfold q_body in H. destruct (tm_keep n) as [T _].
    set (s0 := set_bank s (push_env (bank s))) in *. assert (G0 : good s0) by (apply env_good; auto).
    destruct (parse_tm n s0 l) as [t s1 l1| |] eqn:E; try discriminate. destruct (T _ _ _ _ _ G0 Ha E) as (A1 & A2 & A3 & _). cbn [bind] in H. destruct t as [x|]; [|discriminate].
    destruct (rest_body (parse_q n) (parse_lit n) q s1 l1) as [f s2 l2| |] eqn:E2; try discriminate. cbn [bind] in H. inversion H; subst.
    assert (R : good s2 /\ sle s1 s2 /\ all_ok l' /\ fo s2 f).
    { unfold rest_body in E2.
      assert (O : (exists z l3, l1 = (z, Comma) :: l3 /\ parse_q n q s1 l3 = Ok f s2 l') \/ accept CloseSquare s1 l1 (fun s l => accept Colon s l (fun s l => bind (parse_lit n s l) (fun f s l => absorb (parse_lit n) f s l))) = Ok f s2 l').
      { destruct l1 as [|[z tk] l3]; [auto|]. destruct tk; auto. left; eauto. }
      destruct O as [(z & l3 & -> & O)|O]; [inversion A3; subst; eapply IH2; eauto|].
      apply accept_keep in O as (l3 & O1 & O); auto. apply accept_keep in O as (l4 & O2 & O); auto.
      destruct (parse_lit n s1 l4) as [f1 s3 l5| |] eqn:E3; try discriminate. cbn [bind] in O. destruct (IH1 _ _ _ _ _ A1 O2 E3) as (B1 & B2 & B3 & B4). unfold absorb in O.
      assert (W : forall o l6, all_ok l6 -> bind (parse_lit n s3 l6) (fun g s l => Ok (Bin o f1 g) s l) = Ok f s2 l' -> good s2 /\ sle s1 s2 /\ all_ok l' /\ fo s2 f).
      { intros o l6 Hl6 W. destruct (parse_lit n s3 l6) as [g s4 l7| |] eqn:E4; try discriminate. cbn in W. inversion W; subst. destruct (IH1 _ _ _ _ _ B1 Hl6 E4) as (C1 & C2 & C3 & C4).
        split; auto. split; [eauto using sle_trans|]. split; auto. constructor; auto. eapply fo_le; eauto. }
      destruct l5 as [|[z tk] l6]; [inversion O; subst; auto|]. pose proof B3 as B3'. inversion B3'; subst.
      destruct tk; try (inversion O; subst; auto; fail); eapply W; eauto. }
    destruct R as (R1 & R2 & R3 & R4). unfold pop_env. destruct (pop_frames (ext (bank s2)) (venv (bank s2))) as [e v].
    split; [apply env_good; auto|]. split. { intros g p k' kk Hg. apply A2 in Hg as (k1 & Hg & K1). apply R2 in Hg as (k2 & Hg & K2). exists k2. split; auto. destruct K1 as [->|<-]; auto. }
    split; auto. constructor. eapply fo_le; [|exact R4]. apply sle_bank.
  - intros t o f s l a s' l' G Ha Hf H. rewrite parse_assoc_S in H. unfold assoc_body in H. destruct l as [|[z u] l1]; [inversion H; subst; split; auto; split; [apply sle_refl|auto]|].
    destruct (tok_eqb t u); [|inversion H; subst; split; auto; split; [apply sle_refl|auto]]. inversion Ha; subst.
    destruct (parse_lit n s l1) as [g s1 l2| |] eqn:E; try discriminate. cbn in H. destruct (IH1 _ _ _ _ _ G H3 E) as (B1 & B2 & B3 & B4).
    destruct (IH3 _ _ _ _ _ _ _ _ B1 B3 (fo_bin _ o f g (fo_le _ _ _ B2 Hf) B4) H) as (C1 & C2 & C3 & C4). split; auto. split; [eauto using sle_trans|auto].
  - intros s l a s' l' G Ha H. rewrite parse_fm_S in H. unfold fm_body in H. destruct (parse_lit n s l) as [f s1 l1| |] eqn:E; try discriminate. cbn [bind] in H.
    destruct (IH1 _ _ _ _ _ G Ha E) as (B1 & B2 & B3 & B4).
    assert (D : forall r, r = Ok a s' l' -> (r = Ok f s1 l1 \/ (exists t o, r = parse_assoc n t o f s1 l1) \/ exists z l2 o, l1 = z :: l2 /\ r = bind (parse_lit n s1 l2) (fun g s l => Ok (Bin o f g) s l)) ->
      good s' /\ sle s s' /\ all_ok l' /\ isfo a s').
    { intros r -> [D|[(t & o & D)|(z & l2 & o & -> & D)]].
      - inversion D; subst; auto.
      - symmetry in D. destruct (IH3 _ _ _ _ _ _ _ _ B1 B3 B4 D) as (C1 & C2 & C3 & C4). split; auto. split; [eauto using sle_trans|auto].
      - inversion B3; subst. destruct (parse_lit n s1 l2) as [g s2 l3| |] eqn:E2; try discriminate. cbn in D. inversion D; subst. destruct (IH1 _ _ _ _ _ B1 H3 E2) as (C1 & C2 & C3 & C4).
        split; auto. split; [eauto using sle_trans|]. split; auto. constructor; auto. eapply fo_le; eauto. }
    apply (D _ H). destruct l1 as [|[z tk] l2]; [left; auto|]. destruct tk; try discriminate H; try (left; reflexivity); try (right; left; eauto; fail); right; right; eexists _, _, _; split; reflexivity.
Qed.
Lemma read_keep s x f s' l : good s -> read s x = Some (f, s', l) -> good s' /\ sle s s' /\ fo s' f.
Proof.
  intros G. unfold read. destruct (tokenize x) as [L| |] eqn:E; try discriminate. apply tokens_ok in E.
  destruct (parse_fm (2 * length L + 3) s L) as [g s1 l1| |] eqn:E2; try discriminate. intros H; inversion H; subst.
  destruct (fm_keep (2 * length L + 3)) as (_ & _ & _ & K). destruct (K _ _ _ _ _ G E E2) as (A & B & C & D). auto.
Qed.
