(** Lemmas about the strategies of literal selection. *)
From Coq Require Import ZArith Lia String List Bool PeanoNat.
From Verif Require Import LitSel LitSelSpec LitSelProofs.
Import ListNotations.
Local Open Scope Z_scope.

(** ** Searches that always find something *)

Definition total (F : clause -> option nat) : Prop := forall c, ready c -> F c <> None.

Lemma neg_in : forall c, has_negative c -> exists l, In l c /\ negative l = true.
Proof.
  intros c [i [l [N P]]]. exists l; split; [eapply nth_error_In; eauto|].
  unfold negative; rewrite P; reflexivity.
Qed.

Lemma measured_in : forall c l, ready c -> In l c -> measured l.
Proof. intros c l [_ [_ H]] I. rewrite Forall_forall in H. auto. Qed.

Lemma std_pos : forall l, measured l -> 0 < std l /\ std l < LONG_MAX /\ -1 < dw l.
Proof.
  intros l H. unfold measured in H. cbv zeta in H. unfold dw, diff, std.
  pose proof (Z.le_max_l (lstd (at_ l)) (rstd (at_ l))).
  pose proof (Z.le_min_l (lstd (at_ l)) (rstd (at_ l))). lia.
Qed.

Lemma infpos_lt : forall l, measured l ->
  infpos l < LONG_MAX /\ infpos2 l < LONG_MAX /\ infpos1 l < LONG_MAX.
Proof.
  intros l H. unfold measured in H. cbv zeta in H. unfold infpos, infpos1, infpos2.
  destruct (oriented (at_ l)); lia.
Qed.

Lemma total_largest : forall w0 w, (forall l, measured l -> w0 < w l) ->
  total (largest w0 negative w).
Proof.
  intros w0 w H c R E. destruct (neg_in c) as [l [I N]]; [apply R|].
  apply (largest_none _ _ _ _ E) in N; auto.
  intros l' I'; apply H; eapply measured_in; eauto.
Qed.

Lemma total_smallest : forall w, (forall l, measured l -> w l < LONG_MAX) ->
  total (smallest negative w).
Proof.
  intros w H c R E. destruct (neg_in c) as [l [I N]]; [apply R|].
  apply (smallest_none _ _ _ E) in N; auto.
  intros l' I'; apply H; eapply measured_in; eauto.
Qed.

Lemma t_large : total (largest 0 negative std).
Proof. apply total_largest; intros l H; apply std_pos in H; lia. Qed.
Lemma t_small : total (smallest negative std).
Proof. apply total_smallest; intros l H; apply std_pos in H; lia. Qed.
Lemma t_diff : total (largest (-1) negative dw).
Proof. apply total_largest; intros l H; apply std_pos in H; lia. Qed.
Lemma t_infpos : total find_infpos.
Proof. apply total_smallest; intros l H; apply infpos_lt in H; lia. Qed.
Lemma t_infpos2 : total find_infpos2.
Proof. apply total_smallest; intros l H; apply infpos_lt in H; lia. Qed.

(** Orientable searches *)

Lemma orientable_keep : forall better c i o w0 j, exists k,
  orientable_from i better o w0 (Some j) c = Some k.
Proof.
  intros better. induction c as [|a c IH]; intros; simpl; eauto.
  destruct (negative a && _); apply IH.
Qed.

Lemma orientable_total : forall better w0 c i,
  (forall l, In l c -> better (std l) w0 = true) ->
  (exists l, In l c /\ negative l = true) ->
  exists k, orientable_from i better false w0 None c = Some k.
Proof.
  intros better w0. induction c as [|a c IH]; intros i H [l [I N]]; simpl in *; [contradiction|].
  destruct (negative a) eqn:E; simpl.
  - rewrite (H a) by auto. destruct (oriented (at_ a)); simpl; apply orientable_keep.
  - destruct I as [->|I]; [congruence|]. apply IH; eauto.
Qed.

Lemma t_lor : total largest_orientable.
Proof.
  intros c R E. destruct (orientable_total Z.gtb 0 c 0) as [k K].
  - intros l I. apply Z.gtb_lt. apply (measured_in c l R) in I. apply std_pos in I; lia.
  - apply neg_in, R.
  - unfold largest_orientable in E; congruence.
Qed.
Lemma t_sor : total smallest_orientable.
Proof.
  intros c R E. destruct (orientable_total Z.ltb LONG_MAX c 0) as [k K].
  - intros l I. apply Z.ltb_lt. apply (measured_in c l R) in I. apply std_pos in I; lia.
  - apply neg_in, R.
  - unfold smallest_orientable in E; congruence.
Qed.

(** If not all maximal literals are positive, a maximal negative one is found. *)
Lemma count_all : forall p q c, (forall l, In l c -> p l = true -> q l = true) ->
  count (fun l => p l && q l) c = count p c.
Proof.
  intros p q c H. unfold count. f_equal. f_equal.
  induction c as [|a c IH]; simpl; [reflexivity|].
  rewrite IH by (intros; apply H; simpl; auto).
  destruct (p a) eqn:P; simpl; [rewrite H; simpl; auto|reflexivity].
Qed.

Lemma max_neg_found : forall c, ready c -> max_pos_no c <> max_no c -> find_maxlcomplex c <> None.
Proof.
  intros c R H E. apply H. unfold max_pos_no, max_no. apply count_all.
  intros l I M. destruct (positive l) eqn:P; [reflexivity|].
  unfold find_maxlcomplex, or_else in E.
  destruct (first _ c); [discriminate|].
  destruct (largest (-1) (fun l => neg_max l && ground (at_ l)) dw c); [discriminate|].
  exfalso. apply (largest_none _ _ _ _ E) with (l := l); auto.
  - intros l' I'. apply (measured_in c l' R) in I'. apply std_pos in I'; lia.
  - unfold holds, neg_max, negative. rewrite P, M. reflexivity.
Qed.

(** ** Strategies that select one negative literal *)

(** Nothing changes, or one negative literal is selected, with b possibly
    together with all positive ones. *)
Definition outcome (b : bool) (c c' : clause) : Prop :=
  c' = c \/
  exists i, neg_at c i /\
    (c' = select_nth i c \/ (b = true /\ c' = select_pos (select_nth i c))).

Definition good (b : bool) (f : selfun) : Prop :=
  forall e s, ready (lits s) ->
    exists s', f e s = Some s' /\ outcome b (lits s) (lits s').

Lemma good_weak : forall f, good false f -> good true f.
Proof.
  intros f H e s R. destruct (H e s R) as [s' [E O]]. exists s'; split; auto.
  destruct O as [O|[i [N [O|[O _]]]]]; [left; auto| |discriminate].
  right; exists i; auto.
Qed.

Lemma good_pick : forall b F, finds_neg F -> total F -> good b (pick F).
Proof.
  intros b F HF T e s R. unfold pick. specialize (T _ R). specialize (HF (lits s)).
  destruct (F (lits s)) as [i|]; [|congruence].
  eexists; split; [reflexivity|]. right; exists i; auto.
Qed.
Lemma good_pick_if : forall b F, finds_neg F -> good b (pick_if F).
Proof.
  intros b F HF e s R. unfold pick_if. specialize (HF (lits s)).
  destruct (F (lits s)) as [i|]; eexists; (split; [reflexivity|]).
  - right; exists i; auto.
  - left; auto.
Qed.
Lemma good_ppick : forall F, finds_neg F -> total F -> good true (ppick F).
Proof.
  intros F HF T e s R. unfold ppick. specialize (T _ R). specialize (HF (lits s)).
  destruct (F (lits s)) as [i|]; [|congruence].
  eexists; split; [reflexivity|]. right; exists i; auto.
Qed.
Lemma good_ppick_if : forall F, finds_neg F -> good true (ppick_if F).
Proof.
  intros F HF e s R. unfold ppick_if. specialize (HF (lits s)).
  destruct (F (lits s)) as [i|]; eexists; (split; [reflexivity|]).
  - right; exists i; auto.
  - left; auto.
Qed.
Lemma good_pick_or : forall b F f, finds_neg F -> good b f -> good b (pick_or F f).
Proof.
  intros b F f HF Hf e s R. unfold pick_or. specialize (HF (lits s)).
  destruct (F (lits s)) as [i|]; [|apply Hf; auto].
  eexists; split; [reflexivity|]. right; exists i; auto.
Qed.
Lemma good_none : forall b, good b no_literals.
Proof. intros b e s R. eexists; split; [reflexivity|left; reflexivity]. Qed.
Lemma good_when : forall b p f, good b f -> good b (when p f).
Proof.
  intros b p f H e s R. unfold when. destruct (p e (lits s)); [apply H; auto|].
  eexists; split; [reflexivity|left; reflexivity].
Qed.
Lemma good_when_clear : forall b p f, good b f -> good b (when_else_clear p f).
Proof.
  intros b p f H e s R. unfold when_else_clear. destruct (p e (lits s)); [apply H; auto|].
  eexists; split; [reflexivity|left; simpl; apply unselect_id, R].
Qed.
Lemma good_marking : forall b f, good b f -> good b (marking f).
Proof. intros b f H e s R. apply (H e (mark s)); auto. Qed.
Lemma good_unmarking : forall b f, good b f -> good b (unmarking f).
Proof.
  intros b f H e s R. unfold unmarking. destruct (H e s R) as [s' [-> O]].
  eexists; split; [reflexivity|auto].
Qed.
Lemma good_unmarking_if : forall b F f, good b f -> good b (unmarking_if F f).
Proof.
  intros b F f H e s R. unfold unmarking_if. destruct (F (lits s)).
  - apply good_unmarking; auto.
  - apply H; auto.
Qed.
Lemma good_if : forall b (p : env -> st -> bool) f g, good b f -> good b g ->
  good b (fun e s => if p e s then f e s else g e s).
Proof. intros b p f g F G e s R. destruct (p e s); auto. Qed.
Lemma good_except_horn : forall b p f, good b f -> good b (except_horn p f).
Proof.
  intros b p f H e s R. unfold except_horn. destruct (horn (lits s)); [|apply H; auto].
  destruct (p (lits s)).
  - eexists; split; [reflexivity|left; reflexivity].
  - apply (H e (mark s)); auto.
Qed.
Lemma good_unless : forall b p f, good b f -> good b (unless p f).
Proof. intros; apply good_marking, good_when, good_unmarking; auto. Qed.
Lemma good_unless_pdom : forall b f, good b f -> good b (unless_pdom f).
Proof. intros; apply good_marking, good_when; auto. Qed.
Lemma good_max_lcomplex_with : forall b f, good b f -> good b (max_lcomplex_with f).
Proof.
  intros b f H. apply good_marking, good_when, good_unmarking. intros e s R.
  destruct (Z.eqb_spec (max_pos_no (lits s)) (max_no (lits s))) as [E|E]; simpl; [apply H; auto|].
  unfold pick. pose proof (fn_maxl (lits s)) as N.
  destruct (find_maxlcomplex (lits s)) as [i|] eqn:D.
  - eexists; split; [reflexivity|]. right; exists i; auto.
  - exfalso; eapply max_neg_found; eauto.
Qed.
Lemma good_max_lcomplex_no : forall b bad f, (forall F, finds_neg F -> good b (f F)) ->
  good b (max_lcomplex_no bad f).
Proof.
  intros b bad f H. apply good_marking, good_when, good_unmarking. intros e s R.
  assert (N : no_null (lits s) = true).
  { unfold no_null. destruct (Z.eqb_spec (max_pos_no (lits s)) (max_no (lits s))) as [E|E]; simpl; auto.
    pose proof (max_neg_found _ R E). destruct (find_maxlcomplex (lits s)); congruence. }
  rewrite N. apply H; auto with sel.
Qed.
Lemma good_hg : forall g, good true (hg_min_infpos g).
Proof.
  intros g. apply good_marking. intros e s R.
  destruct (find_infpos (lits s)) as [i|] eqn:E; [|exfalso; eapply t_infpos; eauto].
  destruct (eqb _ g); (apply good_unmarking; auto).
  - apply good_ppick; auto using t_infpos with sel.
  - apply good_pick; auto using t_infpos with sel.
Qed.
Lemma good_pground : good true pground_neg.
Proof.
  intros e s R. unfold pground_neg.
  assert (N : finds_neg (largest (-1) neg_ground dw)) by auto with sel. specialize (N (lits s)).
  destruct (largest (-1) neg_ground dw (lits s)) as [i|]; eexists; (split; [reflexivity|]).
  - right; exists i; auto.
  - left. simpl. unfold unselect, select_pos. rewrite map_map.
    transitivity (unselect (lits s)); [|apply unselect_id, R].
    apply map_ext. intros l. destruct (positive l) eqn:E; auto.
Qed.

(** ** The generic selection *)

(** The order of lit_eval_compare: negative literals first, then the weights. *)
Definition elt (x y : lit * eval) : Prop :=
  let p (z : lit * eval) := if positive (fst z) then 1 else 0 in
  p x < p y \/ p x = p y /\
  (w1 (snd x) < w1 (snd y) \/ w1 (snd x) = w1 (snd y) /\
  (w2 (snd x) < w2 (snd y) \/ w2 (snd x) = w2 (snd y) /\ w3 (snd x) < w3 (snd y))).

Lemma eval_lt_iff : forall x y, eval_lt (fst x) (snd x) (fst y) (snd y) = true <-> elt x y.
Proof.
  intros [l1 e1] [l2 e2]. unfold eval_lt, elt. simpl.
  destruct (positive l1), (positive l2); simpl; try (split; [discriminate|lia]); try (split; auto; lia).
  all: destruct (Z.eqb_spec (w1 e1) (w1 e2)); simpl; rewrite ?Z.ltb_lt; [|lia];
    destruct (Z.eqb_spec (w2 e1) (w2 e2)); simpl; rewrite ?Z.ltb_lt; lia.
Qed.

Lemma elt_trans_le : forall x y z, elt x y -> ~ elt z y -> elt x z.
Proof. intros x y z. unfold elt. cbv zeta. lia. Qed.

(** cand_from: the first of the least *)
Lemma cand_spec : forall c i best b j r, cand_from i best b c = (j, r) ->
  ((j, r) = (best, b) /\ forall x, In x c -> ~ elt x b) \/
  (exists k, j = (i + k)%nat /\ nth_error c k = Some r /\ elt r b /\
     forall k' x, nth_error c k' = Some x -> ~ elt x r /\ ((k' < k)%nat -> elt r x)).
Proof.
  induction c as [|a c IH]; intros i best b j r H; simpl in H.
  - left; split; [congruence|intros x []].
  - destruct (eval_lt (fst a) (snd a) (fst b) (snd b)) eqn:E.
    + apply eval_lt_iff in E. apply IH in H as [[H M]|[k [-> [N [L M]]]]].
      * injection H as -> ->. right. exists 0%nat. rewrite Nat.add_0_r. repeat split; auto.
        -- destruct k'; simpl in H; [injection H as <-; unfold elt; cbv zeta; lia|].
           apply nth_error_In in H. auto.
        -- intros; lia.
      * right. exists (S k). rewrite Nat.add_succ_r. repeat split; auto.
        -- unfold elt in *; cbv zeta in *; lia.
        -- destruct k'; simpl in H; [injection H as <-; unfold elt in *; cbv zeta in *; lia|].
           apply (M _ _ H).
        -- intros K. destruct k'; simpl in H; [injection H as <-; auto|].
           apply (M _ _ H); lia.
    + assert (Q : ~ elt a b).
      { intros Q. apply eval_lt_iff in Q. congruence. }
      apply IH in H as [[H M]|[k [-> [N [L M]]]]].
      * left; split; auto. intros x [<-|I]; auto.
      * right. exists (S k). rewrite Nat.add_succ_r. repeat split; auto.
        -- destruct k'; simpl in H; [injection H as <-|apply (M _ _ H)].
           unfold elt in *; cbv zeta in *; lia.
        -- intros K. destruct k'; simpl in H; [injection H as <-|apply (M _ _ H); lia].
           unfold elt in *; cbv zeta in *; lia.
Qed.

Lemma evals_nth : forall wf c n i,
  nth_error (evals_from n wf c) i =
  match nth_error c i with Some l => Some (l, wf (n + Z.of_nat i) l) | None => None end.
Proof.
  intros wf. induction c as [|a c IH]; intros n [|i]; simpl; auto.
  - rewrite Z.add_0_r. reflexivity.
  - rewrite IH. destruct (nth_error c i); auto. do 3 f_equal. lia.
Qed.

(** Number i with its weight is the first of the least. *)
Definition least (x : list (lit * eval)) (i : nat) (r : lit * eval) : Prop :=
  nth_error x i = Some r /\
  forall k y, nth_error x k = Some y -> ~ elt y r /\ ((k < i)%nat -> elt r y).

Lemma cand_least : forall x c i r, cand_from 1 0 x c = (i, r) -> least (x :: c) i r.
Proof.
  intros x c i r H. apply cand_spec in H as [[H M]|[k [-> [N [L M]]]]].
  - injection H as -> ->. split; [reflexivity|]. intros [|k] y K; simpl in K.
    + injection K as <-. split; [unfold elt; cbv zeta; lia|lia].
    + apply nth_error_In in K. split; [auto|lia].
  - split; [exact N|]. intros [|k'] y K; simpl in K.
    + injection K as <-. split; [unfold elt in *; cbv zeta in *; lia|auto].
    + destruct (M _ _ K) as [A B]. split; auto. intros; apply B; lia.
Qed.

Lemma least_negative : forall n wf c i l e, least (evals_from n wf c) i (l, e) ->
  has_negative c -> nth_error c i = Some l /\ e = wf (n + Z.of_nat i) l /\ positive l = false.
Proof.
  intros n wf c i l e [H M] [k [l' [N P]]].
  rewrite evals_nth in H. destruct (nth_error c i) as [l0|] eqn:E; [|discriminate].
  injection H as -> <-. repeat split; auto.
  destruct (positive l) eqn:Q; auto. exfalso.
  apply (M k (l', wf (n + Z.of_nat k) l')).
  - rewrite evals_nth, N. reflexivity.
  - unfold elt; simpl. rewrite P, Q. lia.
Qed.

Lemma uniq_result : forall pos order pd wf e s, has_negative (lits s) ->
  let c := lits s in
  let v k l := wf (counter e + Z.of_nat k) c (pd c) l in
  exists i l,
    nth_error c i = Some l /\ positive l = false /\
    (forall k l', nth_error c k = Some l' ->
       ~ elt (l', v k l') (l, v i l) /\ ((k < i)%nat -> elt (l, v i l) (l', v k l'))) /\
    uniq_selection pos order pd wf e s =
      if forbidden (v i l) then Some (if order then mark s else s)
      else Some (mkst (if pos then select_pos (select_nth i c) else select_nth i c) false).
Proof.
  intros pos order pd wf e s N c v. unfold uniq_selection. fold c.
  set (g := fun (n : Z) (l : lit) => wf n c (pd c) l).
  destruct (evals_from (counter e) g c) as [|x r] eqn:E.
  - exfalso. destruct N as [i [l [N _]]]. fold c in N.
    pose proof (evals_nth g c (counter e) i) as K. rewrite E, N in K.
    destruct i; discriminate.
  - destruct (cand_from 1 0 x r) as [i [l w]] eqn:D.
    apply cand_least in D. rewrite <- E in D.
    destruct (least_negative _ _ _ _ _ _ D N) as [L [W P]].
    exists i, l. repeat split; auto.
    + destruct D as [_ D]. subst w. apply D with (k := k). rewrite evals_nth, H. reflexivity.
    + destruct D as [_ D]. subst w. apply D with (k := k). rewrite evals_nth, H. reflexivity.
    + simpl. subst w. unfold g, v. destruct (forbidden _); [reflexivity|].
      destruct order, pos; reflexivity.
Qed.

Lemma good_uniq : forall pos order pd wf b, (pos = true -> b = true) ->
  good b (uniq_selection pos order pd wf).
Proof.
  intros pos order pd wf b B e s R.
  destruct (uniq_result pos order pd wf e s) as [i [l [L [P [_ ->]]]]]; [apply R|].
  destruct (forbidden _); eexists; (split; [reflexivity|]).
  - left. destruct order; reflexivity.
  - right. exists i. split; [exists l; auto|]. simpl. destruct pos; auto.
Qed.

(** ** The table *)

#[export] Hint Resolve good_pick good_pick_if good_ppick good_ppick_if good_pick_or good_none
  good_when good_when_clear good_marking good_unmarking good_unmarking_if good_except_horn
  good_unless good_unless_pdom good_max_lcomplex_with good_max_lcomplex_no good_hg good_pground
  t_large t_small t_diff t_infpos t_infpos2 t_lor t_sor : sel.

Lemma gu_f : forall b order pd wf, good b (uniq_selection false order pd wf).
Proof. intros; apply good_uniq; discriminate. Qed.
Lemma gu_t : forall order pd wf, good true (uniq_selection true order pd wf).
Proof. intros; apply good_uniq; auto. Qed.
#[export] Hint Resolve gu_f gu_t : sel.

Lemma g_diff : forall b, good b diff_neg. Proof. intros; unfold diff_neg; auto with sel. Qed.
Lemma g_pdiff : good true pdiff_neg. Proof. unfold pdiff_neg; auto with sel. Qed.
#[export] Hint Resolve g_diff g_pdiff : sel.
Lemma g_optimal : forall b, good b optimal. Proof. intros; unfold optimal; auto with sel. Qed.
Lemma g_poptimal : good true poptimal. Proof. unfold poptimal; auto with sel. Qed.
Lemma g_complex : forall b, good b complex. Proof. intros; unfold complex; auto with sel. Qed.
Lemma g_pcomplex : good true pcomplex. Proof. unfold pcomplex; auto with sel. Qed.
Lemma g_lcomplex : forall b, good b lcomplex. Proof. intros; unfold lcomplex; auto with sel. Qed.
Lemma g_plcomplex : good true plcomplex. Proof. unfold plcomplex; auto with sel. Qed.
Lemma g_small : forall b, good b smallest_neg. Proof. intros; unfold smallest_neg; auto with sel. Qed.
Lemma g_psmall : good true psmallest_neg. Proof. unfold psmallest_neg; auto with sel. Qed.
Lemma g_cq : forall b wf, good b (cq wf). Proof. intros; unfold cq; auto with sel. Qed.
#[export] Hint Resolve g_optimal g_poptimal g_complex g_pcomplex g_lcomplex g_plcomplex g_small
  g_psmall g_cq : sel.
Lemma g_lor : forall b, good b largest_or. Proof. intros; unfold largest_or; auto with sel. Qed.
Lemma g_plor : good true plargest_or. Proof. unfold plargest_or; auto with sel. Qed.
Lemma g_mlor : good true mlargest_or.
Proof. apply (good_if true (fun _ s => horn (lits s))); auto using g_lor, g_plor. Qed.
Lemma g_sor : forall b, good b smallest_or. Proof. intros; unfold smallest_or; auto with sel. Qed.
Lemma g_psor : good true psmallest_or. Proof. unfold psmallest_or; auto with sel. Qed.
Lemma g_msor : good true msmallest_or.
Proof. apply (good_if true (fun _ s => horn (lits s))); auto using g_sor, g_psor. Qed.
Lemma g_ch : forall b, good b complex_horn. Proof. intros; unfold complex_horn; auto with sel. Qed.
Lemma g_pch : good true pcomplex_horn. Proof. unfold pcomplex_horn; auto with sel. Qed.
Lemma g_mch : good true mcomplex_horn.
Proof. apply (good_if true (fun _ s => horn (lits s))); auto using g_ch, g_pch. Qed.
Lemma g_maxuniq : forall b pd wf, good b (max_uniq pd wf).
Proof. intros; unfold max_uniq; auto with sel. Qed.
Lemma g_maxuniq0 : forall b pd wf, good b (max_uniq0 pd wf).
Proof. intros; unfold max_uniq0; auto with sel. Qed.
#[export] Hint Resolve g_lor g_plor g_mlor g_sor g_psor g_msor g_ch g_pch g_mch g_maxuniq g_maxuniq0 : sel.

Definition others := ["SelectNegativeLiterals"; "PSelectNegativeLiterals";
                      "PSelectPureVarNegLiterals"]%string.

Lemma table_good : Forall (fun x => In (fst x) others \/ good (negb (plain (fst x))) (snd x)) table.
Proof.
  unfold table. repeat apply Forall_cons; try apply Forall_nil; cbn [fst snd].
  all: try (left; simpl; tauto).
  all: right; match goal with |- good ?b ?f => let v := eval vm_compute in b in change (good v f) end.
  all: try solve [auto 8 with sel].
  all: try solve [match goal with |- good _ ?f => unfold f end; auto 10 with sel].
  all: try solve [match goal with |- good _ (?f _) => unfold f end; auto 10 with sel].
  all: unfold new_complex, pnew_complex, complex_ahp, pcomplex_ahp, new_complex_ahp, pnew_complex_ahp,
    vg_non_cr, new_complex_ahp_ns, ar_np_eqf, ar_nt_eqf; auto 10 with sel.
Qed.

Lemma lookup_in : forall n t f, lookup n t = Some f -> In (n, f) t.
Proof.
  intros n t f. induction t as [|[m g] t IH]; simpl; [discriminate|].
  destruct (String.eqb_spec n m) as [->|D]; intros H; auto. injection H as <-; auto.
Qed.

(** ** The mark *)

(** If the strategy changes the literals, the mark is off afterwards. *)
Definition clean (f : selfun) : Prop := forall e s s', none_selected (lits s) ->
  f e s = Some s' -> lits s' = lits s \/ marked s' = false.
Definition keep (f : selfun) : Prop := forall e s s', none_selected (lits s) ->
  marked s = false -> f e s = Some s' -> lits s' = lits s \/ marked s' = false.

Lemma clean_keep : forall f, clean f -> keep f.
Proof. intros f H e s s' N _ E. apply (H e s s' N E). Qed.
Lemma clean_unmarking : forall f, clean (unmarking f).
Proof.
  intros f e s s' N E. unfold unmarking in E. destruct (f e s); [|discriminate].
  injection E as <-. right; reflexivity.
Qed.
Lemma clean_marking : forall f, clean f -> clean (marking f).
Proof. intros f H e s s' N E. apply (H e (mark s) s' N E). Qed.
Lemma clean_when : forall p f, clean f -> clean (when p f).
Proof.
  intros p f H e s s' N E. unfold when in E. destruct (p e (lits s)); [apply (H e s s' N E)|].
  injection E as <-; auto.
Qed.
Lemma keep_when : forall p f, keep f -> keep (when p f).
Proof.
  intros p f H e s s' N M E. unfold when in E. destruct (p e (lits s)); [apply (H e s s' N M E)|].
  injection E as <-; auto.
Qed.
Lemma keep_when_clear : forall p f, keep f -> keep (when_else_clear p f).
Proof.
  intros p f H e s s' N M E. unfold when_else_clear in E.
  destruct (p e (lits s)); [apply (H e s s' N M E)|]. injection E as <-; auto.
Qed.
Lemma clean_uniq : forall pos order pd wf, clean (uniq_selection pos order pd wf).
Proof.
  intros pos order pd wf e s s' N E. unfold uniq_selection in E.
  destruct (evals_from _ _ _) as [|x r]; [discriminate|].
  destruct (cand_from 1 0 x r) as [i b]. destruct (forbidden (snd b)).
  - injection E as <-. left; destruct order; reflexivity.
  - right; destruct pos; injection E as <-; reflexivity.
Qed.
Lemma clean_except : forall p f, clean f -> clean (except_horn p f).
Proof.
  intros p f H e s s' N E. unfold except_horn in E. destruct (horn (lits s)); [|apply (H e s s' N E)].
  destruct (p (lits s)); [injection E as <-; auto|apply (H e (mark s) s' N E)].
Qed.
Lemma clean_if_p : forall F, clean (unmarking_if F (pick_if F)).
Proof.
  intros F e s s' N E. unfold unmarking_if in E. destruct (F (lits s)) eqn:D.
  - apply (clean_unmarking _ e s s' N E).
  - unfold pick_if in E. rewrite D in E. injection E as <-; auto.
Qed.
Lemma clean_if_pp : forall F, clean (unmarking_if F (ppick_if F)).
Proof.
  intros F e s s' N E. unfold unmarking_if in E. destruct (F (lits s)) eqn:D.
  - apply (clean_unmarking _ e s s' N E).
  - unfold ppick_if in E. rewrite D in E. injection E as <-; auto.
Qed.
Lemma clean_unless : forall p f, clean (unless p f).
Proof. intros; apply clean_marking, clean_when, clean_unmarking. Qed.
Lemma clean_unless_pdom : forall f, clean f -> clean (unless_pdom f).
Proof. intros; apply clean_marking, clean_when; auto. Qed.
Lemma clean_mlw : forall f, clean (max_lcomplex_with f).
Proof. intros; apply clean_marking, clean_when, clean_unmarking. Qed.
Lemma clean_mln : forall bad f, clean (max_lcomplex_no bad f).
Proof. intros; apply clean_marking, clean_when, clean_unmarking. Qed.
Lemma clean_hg : forall g, clean (hg_min_infpos g).
Proof.
  intros g. apply clean_marking. intros e s s' N E.
  destruct (find_infpos (lits s)); [|discriminate].
  destruct (eqb _ g); apply (clean_unmarking _ e s s' N E).
Qed.
Lemma clean_cond : forall (p : env -> st -> bool) f g, clean f -> clean g ->
  clean (fun e s => if p e s then f e s else g e s).
Proof. intros p f g F G e s s' N E. destruct (p e s); [apply (F e s s' N E)|apply (G e s s' N E)]. Qed.
Lemma keep_pick : forall F, keep (pick F).
Proof. intros F e s s' N M E. unfold pick in E. destruct (F (lits s)); [|discriminate]. injection E as <-; auto. Qed.
Lemma keep_pick_if : forall F, keep (pick_if F).
Proof. intros F e s s' N M E. unfold pick_if in E. destruct (F (lits s)); injection E as <-; auto. Qed.
Lemma keep_ppick : forall F, keep (ppick F).
Proof. intros F e s s' N M E. unfold ppick in E. destruct (F (lits s)); [|discriminate]. injection E as <-; auto. Qed.
Lemma keep_ppick_if : forall F, keep (ppick_if F).
Proof. intros F e s s' N M E. unfold ppick_if in E. destruct (F (lits s)); injection E as <-; auto. Qed.
Lemma keep_pick_or : forall F f, keep f -> keep (pick_or F f).
Proof.
  intros F f H e s s' N M E. unfold pick_or in E. destruct (F (lits s)); [|apply (H e s s' N M E)].
  injection E as <-; auto.
Qed.
Lemma keep_none : keep no_literals.
Proof. intros e s s' N M E. injection E as <-; auto. Qed.
Lemma keep_neg : keep negative_literals.
Proof. intros e s s' N M E. injection E as <-; auto. Qed.
Lemma keep_pneg : keep pnegative_literals.
Proof. intros e s s' N M E. injection E as <-; auto. Qed.
Lemma keep_pfirst : keep pfirst_variable.
Proof. intros e s s' N M E. unfold pfirst_variable in E. destruct (find_neg_pure_var _); injection E as <-; auto. Qed.
Lemma keep_pground : keep pground_neg.
Proof. intros e s s' N M E. unfold pground_neg in E. destruct (largest _ _ _ _); injection E as <-; auto. Qed.

#[export] Hint Resolve clean_unmarking clean_marking clean_when keep_when keep_when_clear clean_uniq
  clean_except clean_if_p clean_if_pp clean_unless clean_unless_pdom clean_mlw clean_mln clean_hg
  keep_pick keep_pick_if keep_ppick keep_ppick_if keep_pick_or keep_none keep_neg keep_pneg
  keep_pfirst keep_pground : mk.
Lemma k_diff : keep diff_neg. Proof. apply keep_pick_if. Qed.
Lemma k_pdiff : keep pdiff_neg. Proof. apply keep_ppick. Qed.
Lemma k_opt : keep optimal. Proof. apply keep_pick_or, k_diff. Qed.
Lemma k_popt : keep poptimal. Proof. apply keep_pick_or, k_pdiff. Qed.
Lemma k_cx : keep complex. Proof. apply keep_pick_or, k_diff. Qed.
Lemma k_pcx : keep pcomplex. Proof. apply keep_pick_or, k_pdiff. Qed.
Lemma k_lcx : keep lcomplex. Proof. apply keep_pick_or, k_diff. Qed.
Lemma k_plcx : keep plcomplex. Proof. apply keep_pick_or, k_pdiff. Qed.
Lemma k_min : keep min_optimal. Proof. apply keep_pick_or, keep_pick. Qed.
Lemma k_pmin : keep pmin_optimal. Proof. apply keep_pick_or, keep_ppick. Qed.
Lemma c_cq : forall wf, clean (cq wf). Proof. intros; apply clean_uniq. Qed.
#[export] Hint Resolve k_diff k_pdiff k_opt k_popt k_cx k_pcx k_lcx k_plcx k_min k_pmin c_cq : mk.
Lemma c_mlor : clean mlargest_or.
Proof. apply (clean_cond (fun _ s => horn (lits s))); unfold largest_or, plargest_or; auto with mk. Qed.
Lemma c_msor : clean msmallest_or.
Proof. apply (clean_cond (fun _ s => horn (lits s))); unfold smallest_or, psmallest_or; auto with mk. Qed.
Lemma c_mch : clean mcomplex_horn.
Proof. apply (clean_cond (fun _ s => horn (lits s))); unfold complex_horn, pcomplex_horn; auto with mk. Qed.
#[export] Hint Resolve c_mlor c_msor c_mch : mk.

Lemma table_keep : Forall (fun x => fst x = "SelectVGNonCR"%string \/ keep (snd x)) table.
Proof.
  unfold table. repeat apply Forall_cons; try apply Forall_nil; cbn [fst snd].
  all: try (left; reflexivity).
  all: right.
  all: try solve [auto 8 with mk].
  all: try solve [apply clean_keep; auto 8 with mk].
  all: try solve [match goal with |- keep ?f => unfold f end; auto 10 with mk].
  all: try solve [apply clean_keep; match goal with |- clean ?f => unfold f end; auto 10 with mk].
  all: try solve [apply clean_keep; match goal with |- clean (?f _) => unfold f end; auto 10 with mk].
  all: try solve [apply clean_keep; match goal with |- clean (?f _ _) => unfold f end; auto 10 with mk].
  all: apply clean_keep; unfold new_complex, pnew_complex, complex_ahp, pcomplex_ahp, new_complex_ahp, pnew_complex_ahp,
    vg_non_cr, new_complex_ahp_ns, ar_np_eqf, ar_nt_eqf; auto 10 with mk.
Qed.
