(** * The checks of blocked clause elimination without equality end (C51). *)
From Coq Require Import Permutation.
From Verif Require Import Terms Unify UnifyProofs MatchProofs Semantics Clauses ClausesProofs Taut Split Infer InferProofs InferTotal Bce BceLoop BceEq BceNeq.
Local Open Scope nat_scope.

Definition settles {A} (f : nat -> option A) : Prop := exists r, eventually f (Some r).
Lemma settles_ext {A} (f g : nat -> option A) : (forall n, f n = g n) -> settles f -> settles g.
Proof. intros H [r [N HN]]. exists r, N. intros n Hn. rewrite <- H. auto. Qed.
Lemma settles_ret {A} (r : A) : settles (fun _ => Some r).
Proof. exists r, 0. auto. Qed.

Lemma existso_settles {A} (f : nat -> A -> option bool) l : (forall a, In a l -> settles (fun n => f n a)) -> settles (fun n => existso (f n) l).
Proof.
  induction l as [|a l IH]; intros H; [apply settles_ret|]. destruct (H a (or_introl eq_refl)) as [r Hr]. destruct IH as [r' Hr']; [intros b Hb; apply H; right; auto|].
  destruct (eventually_both _ _ _ _ Hr Hr') as [N HN]. exists (if r then true else r'), N. intros n Hn. destruct (HN n Hn) as [X Y]. cbn. rewrite X. destruct r; auto.
Qed.
Lemma forallo_settles {A} (f : nat -> A -> option bool) l : (forall a, In a l -> settles (fun n => f n a)) -> settles (fun n => forallo (f n) l).
Proof.
  induction l as [|a l IH]; intros H; [apply settles_ret|]. destruct (H a (or_introl eq_refl)) as [r Hr]. destruct IH as [r' Hr']; [intros b Hb; apply H; right; auto|].
  destruct (eventually_both _ _ _ _ Hr Hr') as [N HN]. exists (if r then r' else false), N. intros n Hn. destruct (HN n Hn) as [X Y]. cbn. rewrite X. destruct r; auto.
Qed.
Lemma filtero_settles {A} (f : nat -> A -> option bool) l : (forall a, In a l -> settles (fun n => f n a)) -> settles (fun n => filtero (f n) l).
Proof.
  induction l as [|a l IH]; intros H; [apply settles_ret|]. destruct (H a (or_introl eq_refl)) as [r Hr]. destruct IH as [r' Hr']; [intros b Hb; apply H; right; auto|].
  destruct (eventually_both _ _ _ _ Hr Hr') as [N HN]. exists (if r then a :: r' else r'), N. intros n Hn. destruct (HN n Hn) as [X Y]. cbn. rewrite X, Y. destruct r; auto.
Qed.

Definition se_list (m : nat) (b : binding) := fix go (l l' : list term) : option bool :=
  match l, l' with
  | [], [] => Some true
  | u :: l1, w :: l2 => match struct_eq m b u w with
                        | Some true => go l1 l2
                        | r => r
                        end
  | _, _ => Some false
  end.
Lemma struct_eq_S m b s t : struct_eq (S m) b s t =
  match deref m b s, deref m b t with
  | Some (Var x), Some (Var y) => Some (Nat.eqb x y)
  | Some (Fun f a), Some (Fun g c) => if Nat.eqb f g then se_list m b a c else Some false
  | Some _, Some _ => Some false
  | _, _ => None
  end.
Proof. reflexivity. Qed.

Lemma struct_eq_total b rank s (HR : forall x t y, b x = Some t -> In y (vars t) -> rank y < rank x) : denotes b s ->
  forall k t u, trank rank t + trank rank u + size (Terms.app s t) < k -> exists r, forall n, k <= n -> struct_eq n b t u = Some r.
Proof.
  intros HD. induction k as [|k IH]; intros t u H; [lia|]. pose proof (size_pos (Terms.app s t)).
  destruct (deref_total b rank HR k t ltac:(lia)) as [t' [D1 R1]]. destruct (deref_total b rank HR k u ltac:(lia)) as [u' [D2 R2]].
  assert (ST : forall n, S k <= n -> exists m, n = S m /\ k <= m /\ deref m b t = Some t' /\ deref m b u = Some u').
  { intros [|m] Hn; [lia|]. exists m. split; auto. split; [lia|]. split; [apply (deref_mono b k m t t')|apply (deref_mono b k m u u')]; auto; lia. }
  pose proof (deref_app b s (denotes_solves _ _ HD) _ _ _ D1) as Ea.
  destruct t' as [x|f a]; destruct u' as [y|g c].
  - eexists. intros n Hn. destruct (ST n Hn) as (m & -> & _ & E1 & E2). rewrite struct_eq_S, E1, E2. reflexivity.
  - eexists. intros n Hn. destruct (ST n Hn) as (m & -> & _ & E1 & E2). rewrite struct_eq_S, E1, E2. reflexivity.
  - eexists. intros n Hn. destruct (ST n Hn) as (m & -> & _ & E1 & E2). rewrite struct_eq_S, E1, E2. reflexivity.
  - assert (G : exists r, forall m, k <= m -> se_list m b a c = Some r).
    { assert (Ba : forall w, In w a -> trank rank w <= trank rank t /\ size (Terms.app s w) < size (Terms.app s t)).
      { intros w Hw. split; [|rewrite Ea; apply size_arg, in_map; auto]. etransitivity; [|exact R1]. apply trank_le. intros z Hz. apply trank_var. simpl. apply in_flat_map; eauto. }
      assert (Bc : forall w, In w c -> trank rank w <= trank rank u).
      { intros w Hw. etransitivity; [|exact R2]. apply trank_le. intros z Hz. apply trank_var. simpl. apply in_flat_map; eauto. }
      clear D1 D2 R1 R2 ST Ea. revert c Bc. induction a as [|w a IHa]; intros [|w' c] Bc; try (eexists; intros; reflexivity).
      destruct (IH w w') as [r Hr].
      { destruct (Ba w (or_introl eq_refl)). pose proof (Bc w' (or_introl eq_refl)). lia. }
      destruct (IHa ltac:(intros z Hz; apply Ba; right; auto) c ltac:(intros z Hz; apply Bc; right; auto)) as [r' Hr'].
      exists (if r then r' else false). intros m Hm. cbn. rewrite (Hr m Hm). destruct r; [apply Hr'; auto|reflexivity]. }
    destruct G as [r Hr]. exists (if Nat.eqb f g then r else false). intros n Hn. destruct (ST n Hn) as (m & -> & Hm & E1 & E2). rewrite struct_eq_S, E1, E2.
    destruct (Nat.eqb f g); auto.
Qed.

Lemma same_inst_settles b t u : acyclic b -> settles (fun n => same_inst n b t u).
Proof.
  intros HA. destruct (acyclic_denotes b HA) as [s HD]. destruct HA as [rank HR].
  destruct (struct_eq_total b rank s HR HD _ t u (Nat.lt_succ_diag_r _)) as [r Hr]. exists r. eexists. exact Hr.
Qed.
Lemma both_settles (f g : nat -> option bool) : settles f -> settles g -> settles (fun n => both (f n) (g n)).
Proof.
  intros [r Hr] [r' Hr']. destruct (eventually_both _ _ _ _ Hr Hr') as [N HN]. exists (if r then r' else false), N. intros n Hn. destruct (HN n Hn) as [X Y].
  rewrite X. destruct r; auto.
Qed.
Lemma equal_deref_settles b e1 e2 : acyclic b -> settles (fun n => equal_deref n b e1 e2).
Proof.
  intros HA. destruct (both_settles _ _ (same_inst_settles b (lt e1) (lt e2) HA) (same_inst_settles b (rt e1) (rt e2) HA)) as [r Hr].
  destruct (both_settles _ _ (same_inst_settles b (lt e1) (rt e2) HA) (same_inst_settles b (rt e1) (lt e2) HA)) as [r' Hr'].
  destruct (eventually_both _ _ _ _ Hr Hr') as [N HN]. exists (if r then true else if ori e1 && ori e2 then false else r'), N. intros n Hn. destruct (HN n Hn) as [X Y].
  unfold equal_deref. rewrite X. destruct r; auto. destruct (ori e1 && ori e2); auto.
Qed.
Lemma find_comp_settles b rest e : acyclic b -> settles (fun n => find_comp n b rest e).
Proof.
  intros HA. apply (existso_settles (fun n x => if Bool.eqb (pos x) (pos e) then Some false else equal_deref n b x e)). intros x _.
  destruct (Bool.eqb (pos x) (pos e)); [apply settles_ret|apply equal_deref_settles; auto].
Qed.

Section Total.
Variable E : env.
Notation SS := (srt E).
Variables (rest : list eqn) (l : eqn).
Hypothesis WL : wf SS (lt l).

Lemma unifies_settles e : wf SS (lt e) -> settles (fun n => unifies E n l e).
Proof.
  intros We. unfold unifies. destruct (negb (Bool.eqb (pos l) (pos e)) && negb (equlit e)); [|apply settles_ret].
  destruct (ev_mgu E start (lt l) (lt e) (inv_empty _) WL We) as [r [[N HN] Hr]]. destruct r as [st|st| |]; try destruct Hr.
  - exists true, N. intros n Hn. rewrite (HN n Hn). reflexivity.
  - exists false, N. intros n Hn. rewrite (HN n Hn). reflexivity.
Qed.
(** what the partner's literals are split into, with enough fuel *)
Lemma split_settles D : (forall e, In e D -> wf SS (lt e)) -> exists u r, eventually (fun n => split_partner E n l D) (Some (u, r)) /\ incl u D /\
  forall e, In e u -> exists st, eventually (fun n => mgu n SS (pp E) start (lt l) (lt e)) (Success st) /\ UnifyProofs.inv SS st.
Proof.
  induction D as [|e D IH]; intros W.
  { exists [], []. split; [exists 0; auto|]. split; intros e []. }
  destruct IH as (u & r & H & I & U); [intros x Hx; apply W; right; auto|]. pose proof (W e (or_introl eq_refl)) as We.
  destruct (negb (Bool.eqb (pos l) (pos e)) && negb (equlit e)) eqn:G.
  - destruct (ev_mgu E start (lt l) (lt e) (inv_empty _) WL We) as [q [Hq Hr]]. destruct (eventually_both _ _ _ _ H Hq) as [N HN]. destruct q as [st|st| |]; try destruct Hr.
    + exists (e :: u), r. split; [|split].
      * exists N. intros n Hn. destruct (HN n Hn) as [X Y]. cbn. unfold unifies. rewrite G, Y, X. reflexivity.
      * intros x [<-|Hx]; [left|right]; auto.
      * intros x [<-|Hx]; [|auto]. exists st. split; [exact Hq|]. destruct Hq as [M HM]. pose proof (mgu_correct M SS (pp E) start (lt l) (lt e) (inv_empty _) WL We) as MC.
        rewrite (HM M (le_n _)) in MC. apply MC.
    + exists u, (e :: r). split; [|split; [intros x Hx; right; auto|auto]].
      exists N. intros n Hn. destruct (HN n Hn) as [X Y]. cbn. unfold unifies. rewrite G, Y, X. reflexivity.
  - destruct H as [N HN]. exists u, (e :: r). split; [|split; [intros x Hx; right; auto|auto]]. exists N. intros n Hn. cbn. unfold unifies. rewrite G, (HN n Hn). reflexivity.
Qed.

Lemma unify_with_settles : forall es st, UnifyProofs.inv SS st -> (forall e, In e es -> wf SS (lt e)) ->
  exists o, eventually (fun n => unify_with E n l es st) (Some o) /\ match o with Some st' => UnifyProofs.inv SS st' | None => True end.
Proof.
  induction es as [|e es IH]; intros st HI W.
  { exists (Some st). split; [exists 0; auto|auto]. }
  pose proof (W e (or_introl eq_refl)) as We. destruct (ev_mgu E st (lt l) (lt e) HI WL We) as [q [Hq Hr]]. destruct q as [st1|st1| |]; try destruct Hr.
  - destruct (IH st1) as [o [Ho Io]]; [|intros x Hx; apply W; right; auto|].
    + destruct Hq as [M HM]. pose proof (mgu_correct M SS (pp E) st (lt l) (lt e) HI WL We) as MC. rewrite (HM M (le_n _)) in MC. apply MC.
    + destruct (eventually_both _ _ _ _ Hq Ho) as [N HN]. exists o. split; auto. exists N. intros n Hn. destruct (HN n Hn) as [X Y]. cbn. rewrite X, Y. reflexivity.
  - exists None. split; auto. destruct Hq as [N HN]. exists N. intros n Hn. cbn. rewrite (HN n Hn). reflexivity.
Qed.

Lemma filtero_nodup {A} (f : A -> option bool) : forall xs r, filtero f xs = Some r -> NoDup xs -> NoDup r.
Proof.
  induction xs as [|a xs IH]; intros r H ND; cbn in H; [injection H as <-; auto|]. inversion ND; subst. destruct (f a) as [v|]; [|discriminate].
  destruct (filtero f xs) as [r'|] eqn:F; [|destruct v; discriminate]. specialize (IH r' eq_refl H3). destruct v; injection H as <-; auto.
  constructor; auto. intros Ha. apply (filtero_spec _ _ _ F) in Ha. tauto.
Qed.
Lemma nodup_app {A} (a b : list A) : NoDup a -> NoDup b -> (forall x, In x a -> ~ In x b) -> NoDup (a ++ b).
Proof.
  induction a as [|x a IH]; intros NA NB H; cbn; auto. inversion NA; subst. constructor.
  - rewrite in_app_iff. intros [X|X]; [auto|]. apply (H x); [left|]; auto.
  - apply IH; auto. intros y Hy. apply H. right. auto.
Qed.

Variables (u r : list eqn).
Hypothesis WU : forall e, In e u -> wf SS (lt e).
Lemma lres_settles : forall k proc st, UnifyProofs.inv SS st -> NoDup proc -> incl proc (seq 0 (length u)) -> length u < k + length proc ->
  settles (fun n => lres_loop E n k rest l u r proc st).
Proof.
  induction k as [|k IH]; intros proc st HI ND IN LE.
  { pose proof (NoDup_incl_length ND IN) as X. rewrite seq_length in X. lia. }
  cbn [lres_loop]. pose proof (inv_acyclic _ _ HI) as HA.
  destruct (existso_settles (fun n => find_comp n (bnd st) rest) r ltac:(intros; apply find_comp_settles; auto)) as [v Hv].
  destruct v.
  { exists true. destruct Hv as [N HN]. exists N. intros n Hn. cbn beta in HN. rewrite (HN n Hn). reflexivity. }
  destruct (Nat.eqb (length proc) (length u)) eqn:LU.
  { exists false. destruct Hv as [N HN]. exists N. intros n Hn. cbn beta in HN. rewrite (HN n Hn). reflexivity. }
  destruct (filtero_settles (fun n i => if existsb (Nat.eqb i) proc then Some false else existso (find_comp n (bnd st) rest) (pick_lits u [i])) (seq 0 (length u))) as [new Hn].
  { intros i _. destruct (existsb (Nat.eqb i) proc); [apply settles_ret|]. apply (existso_settles (fun n => find_comp n (bnd st) rest)). intros; apply find_comp_settles; auto. }
  destruct (eventually_both _ _ _ _ Hv Hn) as [N HN].
  destruct new as [|i new].
  { exists false, N. intros n Hn'. destruct (HN n Hn') as [X Y]. cbn beta in X, Y. rewrite X, Y. reflexivity. }
  assert (NW : NoDup (i :: new) /\ (forall x, In x (i :: new) -> ~ In x proc) /\ incl (i :: new) (seq 0 (length u))).
  { destruct (HN N (le_n _)) as [_ Y]. split; [|split].
    - eapply filtero_nodup; [exact Y|apply seq_NoDup].
    - intros x Hx P. apply (filtero_spec _ _ _ Y) in Hx. destruct Hx as [_ Hx]. apply existsb_mem in P. rewrite P in Hx. discriminate.
    - intros x Hx. apply (filtero_spec _ _ _ Y) in Hx. tauto. }
  destruct NW as (NW1 & NW2 & NW3).
  destruct (unify_with_settles (pick_lits u (i :: new)) st HI) as [o [Ho Io]].
  { intros e He. apply pick_in in He. destruct He as [x [_ He]]. apply WU. eapply nth_error_In; eauto. }
  destruct o as [st'|].
  - destruct (IH (proc ++ i :: new) st' Io) as [v Hv'].
    + apply nodup_app; auto. intros x Hx Hy. apply (NW2 x Hy Hx).
    + apply incl_app; auto.
    + rewrite app_length. cbn. lia.
    + destruct (eventually_both _ _ _ _ Ho Hv') as [N2 HN2]. exists v, (Nat.max N N2). intros n Hn'. destruct (HN n ltac:(lia)) as [X Y]. destruct (HN2 n ltac:(lia)) as [Z W].
      rewrite X. rewrite Y. rewrite Z. exact W.
  - destruct Ho as [N2 HN2]. exists true, (Nat.max N N2). intros n Hn'. destruct (HN n ltac:(lia)) as [X Y]. rewrite X. rewrite Y. rewrite (HN2 n ltac:(lia)). reflexivity.
Qed.
End Total.

Lemma check_neq_settles E P j l D : wf (srt E) (lt l) -> (forall e, In e D -> wf (srt E) (lt e)) -> settles (fun n => check_neq E n P j l D).
Proof.
  intros WL WD. destruct (split_settles E l WL D WD) as (u & r & [N HN] & I & U).
  assert (G : settles (fun n => forallo (check_lres E n (except j P) l u r) (seq 0 (length u)))).
  { apply (forallo_settles (fun n i => check_lres E n (except j P) l u r i)). intros i Hi. apply in_seq in Hi. unfold check_lres, pick_lits. cbn [flat_map].
    destruct (nth_error u i) as [e|] eqn:Ni; [|apply nth_error_None in Ni; lia]. cbn [List.app unify_with].
    destruct (U e (nth_error_In _ _ Ni)) as [st [[M HM] HI]].
    destruct (lres_settles E (except j P) l WL u r ltac:(intros x Hx; apply WD, I; auto) (S (length u)) [i] st HI) as [v [M2 HM2]].
    - constructor; [intros []|constructor].
    - intros x [<-|[]]. apply in_seq. lia.
    - cbn. lia.
    - exists v, (Nat.max M M2). intros n Hn. rewrite (HM n ltac:(lia)). apply HM2. lia. }
  destruct G as [v [N2 HN2]]. exists v, (Nat.max N N2). intros n Hn. unfold check_neq. rewrite (HN n ltac:(lia)). apply HN2. lia.
Qed.
