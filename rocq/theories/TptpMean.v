(** * The formula that is read means what the printed one means (proofs for C62) *)
From Coq Require Import Ascii String List Arith Bool Lia.
From Verif Require Import Tptp TptpSpec TptpLex TptpFuel TptpProofs TptpMain TptpStable.
Import ListNotations.
Local Open Scope string_scope.
Local Open Scope nat_scope.
Local Open Scope list_scope.

Lemma signed_vars pos a x : In x (vars (signed_atom pos a)) <-> In x (tvars a).
Proof.
  unfold signed_atom. destruct (tm_eqb a tfalse) eqn:E.
  - apply tm_eqb_eq in E as ->. destruct pos; cbn; tauto.
  - destruct pos; cbn; rewrite app_nil_r; tauto.
Qed.
Lemma signed_free pos a : free (signed_atom pos a) = vars (signed_atom pos a).
Proof. unfold signed_atom. destruct (tm_eqb a tfalse); destruct pos; reflexivity. Qed.
Lemma norm_lit_vars pos l r x : In x (vars (norm_lit pos l r)) <-> In x (tvars l ++ tvars r).
Proof.
  unfold norm_lit. destruct (tm_eqb r ttrue) eqn:E1; [|destruct (tm_eqb r tfalse) eqn:E2; [|destruct (tm_eqb l ttrue) eqn:E3; [|destruct (tm_eqb l tfalse) eqn:E4; [|reflexivity]]]];
    rewrite signed_vars, in_app_iff; match goal with H : tm_eqb _ _ = true |- _ => apply tm_eqb_eq in H; subst end; cbn; tauto.
Qed.
Lemma norm_lit_free pos l r : free (norm_lit pos l r) = vars (norm_lit pos l r).
Proof. unfold norm_lit. repeat (destruct (tm_eqb _ _); [apply signed_free|]). reflexivity. Qed.
Lemma norm_vars f x : In x (vars (norm f)) <-> In x (vars f).
Proof. induction f as [p l r|f IH|o f IHf g IHg|q y f IH]; cbn [norm vars]; [apply norm_lit_vars|auto|rewrite !in_app_iff; tauto|cbn; tauto]. Qed.
Lemma norm_free f x : In x (free (norm f)) <-> In x (free f).
Proof.
  induction f as [p l r|f IH|o f IHf g IHg|q y f IH]; cbn [norm free]; [rewrite norm_lit_free; apply norm_lit_vars|auto|rewrite !in_app_iff; tauto|].
  split; intros H; apply in_remove in H as [H1 H2]; apply in_in_remove; auto; tauto.
Qed.
Lemma free_vars f x : In x (free f) -> In x (vars f).
Proof.
  induction f as [p l r|f IH|o f IHf g IHg|q y f IH]; cbn [free vars]; auto.
  - rewrite !in_app_iff. tauto.
  - intros H. apply in_remove in H as [H _]. right; auto.
Qed.

Section Mean.
Variables (kind : text -> nat * bool) (M : structure).
Lemma op_sem_iff o P P' Q Q' : (P <-> P') -> (Q <-> Q') -> (op_sem o P Q <-> op_sem o P' Q').
Proof. intros H1 H2. destruct o; cbn; tauto. Qed.
Lemma signed_iff pos P Q : (P <-> Q) -> (signed pos P <-> signed pos Q).
Proof. destruct pos; cbn; tauto. Qed.
Hypothesis ktrue : snd (kind (str "$true")) = true.
Hypothesis kfalse : snd (kind (str "$false")) = true.
Lemma atom_true : is_atom kind ttrue = true. Proof. exact ktrue. Qed.
Lemma atom_false : is_atom kind tfalse = true. Proof. exact kfalse. Qed.
Lemma signed_sat vs b pos a : sat kind M vs b (signed_atom pos a) <-> signed pos (holds M b a = true).
Proof.
  assert (T : holds M b ttrue = true) by reflexivity.
  unfold signed_atom. destruct (tm_eqb a tfalse) eqn:E.
  - apply tm_eqb_eq in E as ->. assert (F : holds M b tfalse = false) by reflexivity. destruct pos; cbn [negb sat]; rewrite atom_true; cbn [orb]; rewrite T, F; unfold signed; split; congruence.
  - destruct pos; cbn [sat]; rewrite atom_true, orb_true_r, T; unfold signed; tauto.
Qed.
Lemma flip pos (x : bool) : signed (negb pos) (x = true) <-> signed pos (x = false).
Proof. destruct pos, x; cbn; intuition congruence. Qed.
Lemma norm_sat f : forall vs b, sat kind M vs b (norm f) <-> sat kind M vs b f.
Proof.
  induction f as [p l r|f IH|o f IHf g IHg|q x f IH]; intros vs b; cbn [norm].
  - assert (T : holds M b ttrue = true) by reflexivity. assert (F : holds M b tfalse = false) by reflexivity.
    unfold norm_lit. destruct (tm_eqb r ttrue) eqn:E1; [|destruct (tm_eqb r tfalse) eqn:E2; [|destruct (tm_eqb l ttrue) eqn:E3; [|destruct (tm_eqb l tfalse) eqn:E4; [|reflexivity]]]];
      rewrite signed_sat; match goal with H : tm_eqb _ _ = true |- _ => apply tm_eqb_eq in H; subst end; cbn [sat].
    + rewrite atom_true, orb_true_r, T. tauto.
    + rewrite atom_false, orb_true_r, F. apply flip.
    + rewrite atom_true, T. cbn [orb]. apply signed_iff. split; congruence.
    + rewrite atom_false, F. cbn [orb]. rewrite flip. apply signed_iff. split; congruence.
  - cbn [sat]. rewrite IH. tauto.
  - cbn [sat]. apply op_sem_iff; auto.
  - destruct q; cbn [sat].
    + split; intros H a Ha; apply IH; auto.
    + split; intros (a & Ha & H); exists a; split; auto; apply IH; auto.
Qed.
Lemma ev_ren h b b' t : (forall x, In x (tvars t) -> b' (h x) = b x) -> ev M b' (ren_tm h t) = ev M b t.
Proof.
  induction t as [x|f args IH] using tm_ind'; intros H; cbn [ren_tm ev]; [apply H; cbn; auto|]. f_equal. rewrite map_map. apply map_ext_in. intros u Hu. rewrite Forall_forall in IH. apply IH; auto.
  intros x Hx. apply H. rewrite tvars_TF. apply in_flat_map. eauto.
Qed.
Lemma atom_ren h t : is_atom kind (ren_tm h t) = is_atom kind t. Proof. destruct t; reflexivity. Qed.
Lemma holds_ren h b b' t : (forall x, In x (tvars t) -> b' (h x) = b x) -> holds M b' (ren_tm h t) = holds M b t.
Proof.
  destruct t as [x|f args]; intros H; cbn [ren_tm holds]; auto. destruct (text_eqb f "$true"); auto. destruct (text_eqb f "$false"); auto. f_equal. rewrite map_map. apply map_ext_in. intros u Hu.
  apply ev_ren. intros x Hx. apply H. rewrite tvars_TF. apply in_flat_map. eauto.
Qed.
Lemma ren_sat h vs vs' f : forall b b', (forall x y, In x (vars f) -> In y (vars f) -> h x = h y -> x = y) -> (forall x, In x (vars f) -> vs' (h x) = vs x) ->
  (forall x, In x (free f) -> b' (h x) = b x) -> (sat kind M vs' b' (ren h f) <-> sat kind M vs b f).
Proof.
  induction f as [p l r|f IH|o f IHf g IHg|q x f IH]; intros b b' Hi Hs Hb; cbn [ren vars free] in *.
  - cbn [sat]. rewrite !atom_ren. apply signed_iff. rewrite !(holds_ren h b b'), !(ev_ren h b b'); try (intros; apply Hb; rewrite in_app_iff; auto). tauto.
  - cbn [sat]. rewrite IH; eauto. tauto.
  - cbn [sat]. apply op_sem_iff; [apply IHf|apply IHg]; auto with datatypes.
  - assert (Q : forall a, sat kind M vs' (bindv b' (h x) a) (ren h f) <-> sat kind M vs (bindv b x a) f).
    { intros a. apply IH; auto with datatypes. intros y Hy. unfold bindv. destruct (Nat.eq_dec x y) as [->|N].
      - destruct (Nat.eq_dec (h y) (h y)); easy.
      - destruct (Nat.eq_dec (h x) (h y)) as [E|_]; [apply Hi in E; cbn; auto using free_vars; easy|]. apply Hb. apply in_in_remove; auto. }
    pose proof (Hs x (or_introl eq_refl)) as Hx. destruct q; cbn [sat]; rewrite Hx.
    + split; intros H a Ha; apply Q; auto.
    + split; intros (a & Ha & H); exists a; split; auto; apply Q; auto.
Qed.
End Mean.

(** ** Reading what has been printed *)
Lemma bank_start vsort b : bank_ok b -> ext b = [] -> bank_inv vsort b.
Proof. intros B E. constructor; auto; rewrite E; discriminate. Qed.
Lemma ends_stop r : ends r -> stop r.
Proof. destruct r as [|c r]; cbn; auto. intros [->|[->| ->]]; reflexivity. Qed.
Lemma ends_tok r l : ends r -> Lex false r l -> l = [] \/ exists z l', l = (z, CloseBracket) :: l' \/ l = (z, Comma) :: l' \/ l = (z, CloseSquare) :: l'.
Proof.
  intros He [n H]. destruct n as [|n]; [discriminate|]. destruct r as [|c r]; cbn [tokens] in H; [cbn in H; inversion H; auto|].
  assert (E : exists t, scan_token (c :: r) = STok t r /\ (t = CloseBracket \/ t = Comma \/ t = CloseSquare)) by (destruct He as [->|[->| ->]]; eexists; split; try reflexivity; auto).
  destruct E as (t & E & Ht). rewrite E in H. right. destruct (tokens n false r) as [l'| |]; cbn in H; inversion H; subst. exists false, l'. destruct Ht as [->|[->| ->]]; auto.
Qed.
Theorem read_print vsort kind pname f s r l : constants_ok kind pname -> (forall x, vsort x <> default_sort -> word (vsort x) 0) -> wf kind pname f ->
  (forall x, In x (free f) -> vsort x = default_sort) -> agrees kind s -> bank_ok (bank s) -> ext (bank s) = [] -> ends r -> tokenize r = Tokens l ->
  exists h s', read s (print vsort pname f ++ r) = Some (ren h (norm f), s', l) /\ (forall x y, In x (vars f) -> In y (vars f) -> h x = h y -> x = y) /\
    (forall x, In x (vars f) -> In (h x) (stacks (bank s') (vsort x))) /\ agrees kind s' /\ bank_ok (bank s').
Proof.
  intros C Hs W Hf Ha Hb He Hr Hl. destruct (fm_read vsort kind pname C Hs f W) as [[_ R] _].
  assert (Hinv : inv vsort kind s) by (split; [auto|apply bank_start; auto]). apply tokenize_lex in Hl.
  pose proof (ends_tok r l Hr Hl) as T.
  destruct (R s r l false Hinv) as (L & s' & H1 & [n0 H2] & (H3 & H4 & H5)); auto.
  { intros y Hy. left. apply Hf. apply norm_free; auto. }
  { apply ends_stop; auto. }
  { destruct T as [->|(z & l' & [->|[->| ->]])]; split; exact I. }
  exists (rho s'), s'. destruct H3 as [A [B1 B2 B3 B4]]. split; [|split; [|split; [|split]]]; auto.
  - apply lex_tokenize in H1. apply (read_fm (S n0) _ _ L); auto. rewrite parse_fm_S. unfold fm_body. rewrite H2 by lia. cbn [bind]. destruct T as [->|(z & l' & [->|[->| ->]])]; reflexivity.
  - intros x y Hx Hy E. apply norm_vars in Hx, Hy. apply H5 in Hx, Hy. unfold known, rho in *. destruct (lookup (pr_var x) (ext (bank s'))) as [[v t]|] eqn:Ex; [|easy].
    destruct (lookup (pr_var y) (ext (bank s'))) as [[w u]|] eqn:Ey; [|easy]. subst w. apply pr_var_inj. eapply B3; eauto.
  - intros x Hx. apply norm_vars in Hx. apply H5 in Hx. unfold known, rho in *. destruct (lookup (pr_var x) (ext (bank s'))) as [[v t]|] eqn:Ex; [|easy].
    pose proof (B4 _ _ _ Ex) as ->. apply B2 in Ex. eapply firstn_in; eauto.
Qed.

(** ** What has been read can be printed *)
Lemma agrees_self s : agrees (kind_of s) s.
Proof. intros f p a k H. unfold kind_of. rewrite H. split; auto. destruct k as [[]|]; auto. Qed.
Lemma sym_self s f p args k : good s -> no_capitals s -> lookup f (sig s) = Some (p, length args, k) -> sym_ok (kind_of s) (find_name s) f args.
Proof.
  intros G N H. unfold sym_ok, kind_of, find_name. rewrite H. split; auto. destruct (g_names s G _ _ _ _ H) as [R1 [R2|[R2 R3]]]; [auto|]. rewrite R2 in H. now apply N in H.
Qed.
Lemma fterm_self s t : good s -> no_capitals s -> fun_term s t -> fterm (kind_of s) (find_name s) t.
Proof.
  intros G N. induction t as [x|f args IH] using tm_ind'; intros H; [constructor|]. inversion H as [|? p ? H1 H2]; subst. constructor.
  - unfold kind_of. rewrite H1. auto.
  - eapply sym_self; eauto.
  - rewrite Forall_forall in *. auto.
Qed.
Lemma wf_self s f : good s -> no_capitals s -> fo s f -> wf (kind_of s) (find_name s) f.
Proof.
  intros G N H. induction H as [pos l r H1 H2|pos a H1|f H IH|o f g H1 IH1 H2 IH2|q x f H IH]; [apply wf_eq|apply wf_atom|apply wf_not|apply wf_bin|apply wf_qu]; auto using fterm_self; [|left; auto].
  destruct H1 as [f p args H1 H2]. constructor.
  - unfold kind_of. rewrite H1. auto.
  - eapply sym_self; eauto.
  - eapply Forall_impl; [|exact H2]. intros t. apply fterm_self; auto.
Qed.
Lemma consts_self s : good s -> constants_ok (kind_of s) (find_name s).
Proof. intros G. unfold constants_ok, kind_of, find_name. rewrite (g_true s G), (g_false s G). auto. Qed.

Lemma good_next s : good s -> good (next s).
Proof. intros [A B C D E]. constructor; auto. apply bank_ok_ext; auto. Qed.
Lemma good_start : good start.
Proof.
  constructor; auto.
  - intros f p a k. cbn -[str]. destruct (text_eqb f (str "$true")) eqn:E1; [|destruct (text_eqb f (str "$false")) eqn:E2; [|discriminate]].
    + apply text_eqb_eq in E1. intros H; injection H as <- <- <-. split; [symmetry; exact E1|]. left. apply k_word, (w_dollar (str "true")); [discriminate|auto|].
      intros [W|[W|[W|[]]]]; discriminate W.
    + apply text_eqb_eq in E2. intros H; injection H as <- <- <-. split; [symmetry; exact E2|]. left. apply k_word, (w_dollar (str "false")); [discriminate|auto|].
      intros [W|[W|[W|[]]]]; discriminate W.
  - constructor; cbn; auto; try easy. constructor.
  - intros t v [].
Qed.
Lemma good_reachable s : reachable s -> good s.
Proof. induction 1 as [|s x f s' l _ IH E]; [apply good_start|]. eapply read_keep; [|exact E]. apply good_next; auto. Qed.
Lemma sort_word s vs : good s -> sorts_of (bank s) vs -> forall x, vs x <> default_sort -> word (vs x) 0.
Proof. intros G [_ H] x N. destruct (g_sorts s G _ _ (H x N)) as [E|E]; [easy|auto]. Qed.
