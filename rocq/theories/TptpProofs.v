(** * What is printed is read back (proofs for C62) *)
From Coq Require Import Ascii String List Arith Bool Lia Permutation.
From Verif Require Import Tptp TptpSpec TptpLex TptpFuel.
Import ListNotations.
Local Open Scope string_scope.
Local Open Scope nat_scope.
Local Open Scope list_scope.

(** ** Association lists *)
Lemma lookup_assign {A} n m (a : A) l : lookup m (assign n a l) = if text_eqb m n then Some a else lookup m l.
Proof.
  induction l as [|[k b] l IH]; cbn.
  - destruct (text_eqb m n); auto.
  - destruct (text_eqb n k) eqn:E; cbn.
    + apply text_eqb_eq in E as <-. destruct (text_eqb m n); auto.
    + rewrite IH. destruct (text_eqb m k) eqn:E1; auto. destruct (text_eqb m n) eqn:E2; auto.
      apply text_eqb_eq in E1 as <-, E2 as ->. rewrite text_eqb_refl in E. discriminate.
Qed.
Lemma upd_same {A} (f : text -> A) n a : upd f n a n = a.
Proof. unfold upd. rewrite text_eqb_refl. auto. Qed.
Lemma upd_other {A} (f : text -> A) n a m : n <> m -> upd f n a m = f m.
Proof. intros H. unfold upd. rewrite (proj2 (text_eqb_neq n m) H). auto. Qed.

Fixpoint tm_ind' (P : tm -> Prop) (Hv : forall x, P (TV x)) (Hf : forall f args, Forall P args -> P (TF f args)) (t : tm) : P t :=
  match t with
  | TV x => Hv x
  | TF f args => Hf f args ((fix go (l : list tm) : Forall P l := match l with [] => Forall_nil _ | u :: l' => Forall_cons _ (tm_ind' P Hv Hf u) (go l') end) args)
  end.
Lemma tm_eqb_eq s : forall t, tm_eqb s t = true <-> s = t.
Proof.
  induction s as [x|f a IH] using tm_ind'; intros [y|g b]; cbn; try (split; congruence).
  - rewrite Nat.eqb_eq. split; congruence.
  - rewrite andb_true_iff, text_eqb_eq.
    assert (W : (fix go (a b : list tm) : bool := match a, b with [], [] => true | s :: a', t :: b' => tm_eqb s t && go a' b' | _, _ => false end) a b = true <-> a = b).
    { revert b. induction IH as [|s a Hs _ IH]; intros [|t b]; try (split; congruence). rewrite andb_true_iff, Hs, IH. split; [intros [-> ->]; auto|]. intros E; inversion E; auto. }
    rewrite W. split; [intros [-> ->]; auto|]. intros E; inversion E; auto.
Qed.
Lemma tm_eqb_refl t : tm_eqb t t = true.
Proof. apply tm_eqb_eq; auto. Qed.
Lemma tm_eqb_neq s t : tm_eqb s t = false <-> s <> t.
Proof. rewrite <- Bool.not_true_iff_false, tm_eqb_eq. tauto. Qed.

(** ** Names *)
Definition calm (l : list token) : Prop :=
  match l with [] => True | (_, t) :: _ => match t with OpenBracket | Colon | Slash | Fullstop | Identifier _ | PosInt _ => False | _ => True end end.
Lemma lower_start c : islower c = true -> isstartidchar c = true.
Proof. unfold isstartidchar, isalpha. intros ->. rewrite orb_true_r. auto. Qed.
Lemma upper_start c : isupper c = true \/ c = "_"%char -> isstartidchar c = true.
Proof. unfold isstartidchar, isalpha. intros [-> | ->]; auto. Qed.
Lemma lower_not_cap c : islower c = true -> isupper c || is c "_" = false.
Proof. intros H. destruct c as [[] [] [] [] [] [] [] []]; try reflexivity; discriminate H. Qed.
Lemma word_read p n sk r l : word p n -> stop r -> Lex false r l -> (n = 0 -> calm l) -> (n > 0 -> exists z l1, l = (z, OpenBracket) :: l1) ->
  exists L, Lex sk (p ++ r) L /\ parse_sym L = Some (p, KFun, l).
Proof.
  intros W Hr Hl H0 Hn. destruct W as [c a n Hc Ha|c a n Hc Ha Hp|a n Ha Ha' Hi|b n Hb].
  - eexists. split; [eapply lex_tok; [apply sc_ident; auto using lower_start|eauto]|]. cbn [parse_sym]. rewrite (lower_not_cap c Hc). auto.
  - eexists. split; [eapply lex_tok; [apply sc_ident; auto using upper_start|eauto]|]. cbn [parse_sym]. destruct (Hn Hp) as (z & l1 & ->). rewrite andb_false_r. auto.
  - eexists. split.
    + eapply lex_tok; [apply sc_dollar; auto|eauto]; intros E; apply Hi; cbn -[str]; auto.
    + cbn [parse_sym]. rewrite (proj2 (text_eqb_neq _ _)); auto. intros E; apply Hi; cbn -[str]; auto.
  - eexists. split; [eapply lex_tok; [apply sc_squote; auto|eauto]|]. auto.
Qed.
Lemma zeros_num d : numeral d -> skip_zeros d = d.
Proof.
  intros [|c a Hc Hz Ha]; [auto|]. destruct c as [[] [] [] [] [] [] [] []]; try discriminate Hc; try reflexivity. now contradiction Hz.
Qed.
Lemma calm_more l : calm l -> more_number l = false.
Proof. unfold calm, more_number. destruct l as [|[[] []] l]; auto; tauto. Qed.
Lemma sc_numeral d r : numeral d -> stop r -> scan_token (d ++ r) = STok (PosInt d) r.
Proof. intros [|c a Hc Hz Ha] Hr; apply sc_num; auto. Qed.
Lemma name_read p n sk r l : name_ok p n -> stop r -> Lex false r l -> (n = 0 -> calm l) -> (n > 0 -> exists z l1, l = (z, OpenBracket) :: l1) ->
  exists L k, Lex sk (p ++ r) L /\ parse_sym L = Some (p, k, l) /\ k <> KVar /\ (n > 0 -> k = KFun).
Proof.
  intros W Hr Hl H0 Hn. destruct W as [p n W|b Hb|d Hd|d Hd Hz].
  - destruct (word_read p n sk r l W Hr Hl H0 Hn) as (L & H1 & H2). exists L, KFun. repeat split; auto. discriminate.
  - eexists _, KNum. split; [eapply lex_tok; [apply sc_dquote; auto|eauto]|]. repeat split; auto; [discriminate|lia].
  - eexists _, KNum. split; [eapply lex_tok; [apply sc_numeral; auto|eauto]|]. cbn [parse_sym]. rewrite (calm_more l) by auto. unfold normalize_int. rewrite (zeros_num d Hd).
    repeat split; auto; [discriminate|lia].
  - eexists _, KNum. split; [cbn [app]; eapply lex_tok; [apply sc_hyphen|eapply lex_tok; [apply sc_numeral; auto|eauto]]|]. cbn [parse_sym].
    rewrite (calm_more l) by auto. unfold normalize_int. rewrite (zeros_num d Hd), (proj2 (text_eqb_neq _ _) Hz). cbn. repeat split; auto; [discriminate|lia].
Qed.
Lemma var_read x sk r l : stop r -> Lex false r l -> match l with (_, OpenBracket) :: _ => False | _ => True end ->
  exists L, Lex sk (pr_var x ++ r) L /\ parse_sym L = Some (pr_var x, KVar, l).
Proof.
  intros Hr Hl Hc. exists ((sk, Identifier (pr_var x)) :: l). split; [eapply lex_tok; [apply sc_var; auto|auto]|]. cbn [parse_sym].
  assert (match pr_var x with c :: _ => isupper c || is c "_" | [] => false end = true) as -> by (unfold pr_var; destruct (Nat.odd x); auto).
  destruct l as [|[z []] l]; auto; easy.
Qed.

(** ** The variable bank *)
Section Bank.
Variable vsort : nat -> text.
Record bank_inv (b : varbank) : Prop := mkbi {
  bi_ok : bank_ok b;
  bi_used : forall n v t, lookup n (ext b) = Some (v, t) -> In v (firstn (vcnt b t) (stacks b t));
  bi_inj : forall n m v t u, lookup n (ext b) = Some (v, t) -> lookup m (ext b) = Some (v, u) -> n = m;
  bi_sort : forall x v t, lookup (pr_var x) (ext b) = Some (v, t) -> t = vsort x }.
Definition le_b (b b' : varbank) : Prop :=
  venv b' = venv b /\ (forall n a, lookup n (ext b) = Some a -> lookup n (ext b') = Some a) /\ (forall t v, In v (stacks b t) -> In v (stacks b' t)).
Lemma le_b_refl b : le_b b b. Proof. repeat split; auto. Qed.
Lemma le_b_trans b1 b2 b3 : le_b b1 b2 -> le_b b2 b3 -> le_b b1 b3.
Proof. intros (A & B & C) (D & E & F). split; [congruence|]. split; auto. Qed.
Lemma firstn_in {A} n (l : list A) x : In x (firstn n l) -> In x l.
Proof. revert l; induction n as [|n IH]; intros [|y l]; cbn; auto; try tauto. intros [H|H]; auto. Qed.
Lemma firstn_S_nth {A} n (l : list A) d : n < length l -> firstn (S n) l = firstn n l ++ [nth n l d].
Proof. revert l; induction n as [|n IH]; intros [|y l] H; cbn in *; try lia; auto. f_equal. rewrite <- IH by lia. auto. Qed.
Lemma nodup_firstn_nth {A} n (l : list A) d : NoDup l -> n < length l -> ~ In (nth n l d) (firstn n l).
Proof.
  revert l; induction n as [|n IH]; intros [|y l] N H; cbn in *; try lia; auto. inversion N; subst. intros [E|E].
  - apply H2. rewrite E. apply nth_In. lia.
  - eapply IH; eauto. lia.
Qed.
(** a new variable is new, and of its sort *)
Lemma fresh_ok b t v b' : bank_ok b -> get_fresh b t = (v, b') ->
  bank_ok b' /\ ext b' = ext b /\ venv b' = venv b /\ In v (firstn (vcnt b' t) (stacks b' t)) /\
  (forall u w, In w (firstn (vcnt b u) (stacks b u)) -> w <> v /\ In w (firstn (vcnt b' u) (stacks b' u))) /\
  (forall u w, In w (stacks b u) -> In w (stacks b' u)).
Proof.
  intros [C N F So] H. unfold get_fresh in H. destruct (length (stacks b t) <=? vcnt b t) eqn:E; inversion H; subst; clear H; cbn.
  - apply Nat.leb_le in E. pose proof (C t) as Ct. assert (Et : vcnt b t = length (stacks b t)) by lia.
    assert (K : forall u w, In w (stacks b u) -> w <> fresh b + 2) by (intros u w Hw; apply F in Hw; lia).
    split; [|split; [|split; [|split; [|split]]]]; auto.
    + constructor; cbn.
      * intros u. unfold upd. destruct (text_eqb t u) eqn:Eu; auto. rewrite app_length. cbn. lia.
      * intros u. unfold upd. destruct (text_eqb t u) eqn:Eu; auto.
        apply (Permutation.Permutation_NoDup (l := (fresh b + 2) :: stacks b t)); [apply Permutation.Permutation_cons_append|]. constructor; auto. intros Hi. now apply K in Hi.
      * intros u w. unfold upd. destruct (text_eqb t u) eqn:Eu; [rewrite in_app_iff; cbn; intros [Hw|[<-|[]]]; [apply F in Hw|]; lia|]. intros Hw. apply F in Hw. lia.
      * intros u1 u2 w. unfold upd. destruct (text_eqb t u1) eqn:E1, (text_eqb t u2) eqn:E2; rewrite ?in_app_iff; cbn.
        -- apply text_eqb_eq in E1, E2. congruence.
        -- apply text_eqb_eq in E1 as <-. intros [Hw|[<-|[]]] Hw2; eauto. now apply K in Hw2.
        -- apply text_eqb_eq in E2 as <-. intros Hw2 [Hw|[<-|[]]]; eauto. now apply K in Hw2.
        -- eauto.
    + rewrite !upd_same, Et. rewrite firstn_all2 by (rewrite app_length; cbn; lia). apply in_app_iff; cbn; auto.
    + intros u w Hw. split; [apply firstn_in in Hw; now apply K in Hw|]. unfold upd. destruct (text_eqb t u) eqn:Eu; auto.
      apply text_eqb_eq in Eu as <-. apply firstn_in in Hw. rewrite firstn_all2 by (rewrite app_length; cbn; lia). apply in_app_iff; auto.
    + intros u w Hw. unfold upd. destruct (text_eqb t u) eqn:Eu; auto. apply text_eqb_eq in Eu as <-. apply in_app_iff; auto.
  - apply Nat.leb_gt in E.
    split; [|split; [|split; [|split; [|split]]]]; auto.
    + constructor; cbn; auto. intros u. unfold upd. destruct (text_eqb t u) eqn:Eu; auto. apply text_eqb_eq in Eu as <-. lia.
    + rewrite upd_same. rewrite (firstn_S_nth _ _ 0) by auto. apply in_app_iff; cbn; auto.
    + intros u w Hw. split.
      * intros ->. assert (u = t). { apply firstn_in in Hw. apply (So u t) in Hw; auto. apply nth_In; auto. } subst u.
        eapply nodup_firstn_nth in Hw; eauto.
      * unfold upd. destruct (text_eqb t u) eqn:Eu; auto. apply text_eqb_eq in Eu as <-. rewrite (firstn_S_nth _ _ 0) by auto. apply in_app_iff; auto.
Qed.
Lemma add_ok b t v b' x : bank_inv b -> lookup (pr_var x) (ext b) = None -> t = vsort x -> get_fresh b t = (v, b') ->
  let b2 := set_ext b' ((pr_var x, (v, t)) :: ext b') (venv b') in bank_inv b2 /\ le_b b b2 /\ lookup (pr_var x) (ext b2) = Some (v, vsort x).
Proof.
  intros [K U I So] Hn Ht Hf. destruct (fresh_ok b t v b' K Hf) as (K' & He & Hv & Hu & Ho & Hs). cbn [set_ext ext venv stacks vcnt fresh]. rewrite He, Hv.
  split; [|split].
  - constructor; cbn.
    + destruct K' as [k1 k2 k3 k4]. constructor; cbn; auto.
    + intros n w u. destruct (text_eqb n (pr_var x)) eqn:E; [intros W; inversion W; subst; auto|]. intros W. eapply Ho; eauto.
    + intros n m w u1 u2. destruct (text_eqb n (pr_var x)) eqn:E1, (text_eqb m (pr_var x)) eqn:E2.
      * apply text_eqb_eq in E1, E2. congruence.
      * intros W1 W2. inversion W1; subst. apply U, Ho in W2. tauto.
      * intros W1 W2. inversion W2; subst. apply U, Ho in W1. tauto.
      * eauto.
    + intros y w u. destruct (text_eqb (pr_var y) (pr_var x)) eqn:E; [|eauto]. apply text_eqb_eq, pr_var_inj in E as ->. intros W; inversion W; subst; auto.
  - repeat split; cbn; auto. intros n a. destruct (text_eqb n (pr_var x)) eqn:E; auto. apply text_eqb_eq in E as ->. congruence.
  - cbn. rewrite text_eqb_refl. subst t. auto.
Qed.
Lemma var_alloc_ok b x : bank_inv b -> vsort x = default_sort \/ lookup (pr_var x) (ext b) <> None ->
  exists v b', var_alloc b (pr_var x) = (v, b') /\ bank_inv b' /\ le_b b b' /\ lookup (pr_var x) (ext b') = Some (v, vsort x).
Proof.
  intros H Hx. unfold var_alloc. destruct (lookup (pr_var x) (ext b)) as [[v t]|] eqn:E.
  - exists v, b. split; auto. split; auto. split; [apply le_b_refl|]. rewrite E. f_equal. f_equal. eapply bi_sort; eauto.
  - destruct Hx as [Hx|Hx]; [|congruence]. destruct (get_fresh b default_sort) as [v b'] eqn:Ef.
    eexists v, _. split; [reflexivity|]. apply (add_ok b default_sort v b' x); auto.
Qed.
Lemma var_alloc_sort_ok b x : bank_inv b ->
  exists v b', var_alloc_sort b (pr_var x) (vsort x) = (v, b') /\ bank_inv b' /\ le_b b b' /\ lookup (pr_var x) (ext b') = Some (v, vsort x).
Proof.
  intros H. unfold var_alloc_sort. destruct (lookup (pr_var x) (ext b)) as [[v t]|] eqn:E.
  - pose proof (bi_sort b H _ _ _ E) as Et. subst t. rewrite text_eqb_refl. exists v, b. split; auto. split; auto. split; [apply le_b_refl|]. auto.
  - destruct (get_fresh b (vsort x)) as [v b'] eqn:Ef. eexists v, _. split; [reflexivity|]. apply (add_ok b (vsort x) v b' x); auto.
Qed.

(** ** States of the reader *)
Variable kind : text -> nat * bool.
Definition inv (s : pstate) : Prop := agrees kind s /\ bank_inv (bank s).
Definition le_s (s s' : pstate) : Prop := le_b (bank s) (bank s').
Definition known (s : pstate) (x : nat) : Prop := lookup (pr_var x) (ext (bank s)) <> None.
Definition rho (s : pstate) (x : nat) : nat := match lookup (pr_var x) (ext (bank s)) with Some (v, _) => v | None => 0 end.
Lemma known_le s s' x : le_s s s' -> known s x -> known s' x.
Proof. intros (_ & H & _) K. unfold known in *. destruct (lookup (pr_var x) (ext (bank s))) eqn:E; [|easy]. rewrite (H _ _ E). discriminate. Qed.
Lemma rho_le s s' x : le_s s s' -> known s x -> rho s' x = rho s x.
Proof. intros (_ & H & _) K. unfold known, rho in *. destruct (lookup (pr_var x) (ext (bank s))) eqn:E; [|easy]. rewrite (H _ _ E). auto. Qed.
Definition usable (s : pstate) (x : nat) : Prop := vsort x = default_sort \/ known s x.
Lemma usable_le s s' x : le_s s s' -> usable s x -> usable s' x.
Proof. intros H [K|K]; [left|right]; eauto using known_le. Qed.
Lemma sig_insert_ok s p n : agrees kind s -> fst (kind (raw p)) = n -> exists s', sig_insert s p n = Some s' /\ agrees kind s' /\ bank s' = bank s.
Proof.
  intros A Hn. unfold sig_insert. destruct (lookup (raw p) (sig s)) as [[[q a] k]|] eqn:E.
  - apply A in E as [-> _]. rewrite Hn, Nat.eqb_refl. eauto.
  - eexists. split; [reflexivity|]. split; auto. intros f q a k. cbn. destruct (text_eqb f (raw p)) eqn:Ef; [|apply A]. apply text_eqb_eq in Ef as ->. intros W; inversion W; subst. auto.
Qed.
Lemma declare_ok s f b : agrees kind s -> snd (kind f) = b -> agrees kind (declare s f b) /\ bank (declare s f b) = bank s.
Proof.
  intros A Hb. unfold declare. destruct (lookup f (sig s)) as [[[q a] k]|] eqn:E; auto. split; auto. intros g q' a' k'. cbn. rewrite lookup_assign.
  destruct (text_eqb g f) eqn:Eg; [|apply A]. apply text_eqb_eq in Eg as ->. intros W; inversion W; subst. apply A in E as [-> _]. auto.
Qed.
Lemma role_ok s f : agrees kind s -> role s f = None \/ role s f = Some (snd (kind f)).
Proof. intros A. unfold role. clear - A. destruct (lookup f (sig s)) as [[[q a] k]|] eqn:E; auto. apply A in E as [_ E]. auto. Qed.
Definition post (s s' : pstate) (V : list nat) : Prop := inv s' /\ le_s s s' /\ (forall x, In x V -> known s' x).
Lemma post_refl s : inv s -> post s s [].
Proof. intros H. split; auto. split; [apply le_b_refl|]. intros x []. Qed.
Lemma post_trans s1 s2 s3 V W : post s1 s2 V -> post s2 s3 W -> post s1 s3 (V ++ W).
Proof.
  intros (A & B & C) (D & E & F). split; auto. split; [eapply le_b_trans; eauto|]. intros x Hx. apply in_app_iff in Hx as [Hx|Hx]; auto. eapply known_le; eauto.
Qed.
Lemma post_sig s s1 s' V : post s s1 V -> agrees kind s' -> bank s' = bank s1 -> post s s' V.
Proof. intros ((A & A') & B & C) D E. split; [split; auto; rewrite E; auto|]. unfold le_s, known. rewrite E. auto. Qed.

Lemma subterm_ok t s : inv s -> match t with TV _ => True | TF f _ => snd (kind f) = false end -> exists s', subterm_check t s = Some s' /\ agrees kind s' /\ bank s' = bank s.
Proof.
  intros [A B] Ht. destruct t as [x|f args]; cbn; [eauto|].
  assert (role s f <> Some true) by (destruct (role_ok s f A) as [-> | ->]; congruence).
  destruct (role s f) as [[]|]; [congruence| |]; (eexists; split; [reflexivity|]; apply declare_ok; auto).
Qed.
End Bank.
