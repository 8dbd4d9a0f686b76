(** * Resolvents of predicate elimination: sound, and complete for the predicate resolved upon (C52). *)
From Coq Require Import Classical ClassicalEpsilon.
From Verif Require Import Terms Unify UnifyProofs MatchProofs Semantics Clauses ClausesProofs Taut TautProofs Split Infer InferProofs Unfold UnfoldProofs
  Bce BceEq BceNeq BceProofs PredElim.
Local Open Scope nat_scope.

Lemma Forall2_except {A B} (R : A -> B -> Prop) : forall l l' j, Forall2 R l l' -> Forall2 R (except j l) (except j l').
Proof. intros l l' j H. revert j. induction H as [|a b l l' Hab H IH]; intros [|j]; cbn; auto. Qed.
Lemma Forall2_rev {A B} (R : A -> B -> Prop) : forall l l', Forall2 R l l' -> Forall2 R (rev l) (rev l').
Proof. intros l l' H. induction H; cbn; auto. apply Forall2_app; auto. Qed.
Lemma Forall2_nth {A B} (R : A -> B -> Prop) : forall l l' j b, Forall2 R l l' -> nth_error l' j = Some b -> exists a, nth_error l j = Some a /\ R a b.
Proof.
  intros l l' j b H. revert j. induction H as [|a0 b0 l l' Hab H IH]; intros [|j] Hn; cbn in *; try discriminate; [injection Hn as <-; eauto|auto].
Qed.
Lemma Forall2_in_r {A B} (R : A -> B -> Prop) : forall l l' b, Forall2 R l l' -> In b l' -> exists a, In a l /\ R a b.
Proof. intros l l' b H Hb. apply In_nth_error in Hb. destruct Hb as [j Hj]. destruct (Forall2_nth R _ _ _ _ H Hj) as [a [Ha Hr]]. exists a. split; auto. eapply nth_error_In; eauto. Qed.
Lemma Exists_rev {A} (P : A -> Prop) l : Exists P (rev l) <-> Exists P l.
Proof. rewrite !Exists_exists. split; intros [x [Hx Px]]; exists x; split; auto; [apply in_rev; auto|apply -> in_rev; auto]. Qed.

Section Res.
Variables (E : env) (alt : var -> var) (base : var -> Prop).
Notation SS := (srt E).
Notation bool_sort := (fres SS true_code).
Hypotheses (HE : env_ok E) (HF : fo_sig E) (HFS : fo_sorts SS (pp E)) (HA : alt_ok E alt base).

Definition gc (c : clause) : Prop := clause_ok E c /\ fo_clause E c.
Lemma gc_in c e : gc c -> In e c -> eqn_ok E e /\ fo_lit E e.
Proof. intros [A B] I. unfold clause_ok, fo_clause in *. rewrite Forall_forall in A, B. auto. Qed.
Lemma gc_sub c d : gc c -> (forall e, In e d -> In e c) -> gc d.
Proof. intros G H. split; apply Forall_forall; intros e He; apply (gc_in c e G); auto. Qed.
Lemma gc_intro c : (forall e, In e c -> eqn_ok E e /\ fo_lit E e) -> gc c.
Proof. intros H. split; apply Forall_forall; intros e He; apply H; auto. Qed.
Lemma gc_app c d : gc c -> gc d -> gc (c ++ d).
Proof. intros A B. apply gc_intro. intros e He. apply in_app_iff in He. destruct He; [apply (gc_in c)|apply (gc_in d)]; auto. Qed.

(** the literal [e'] is the instance of [e] *)
Definition img (s : subst) (e e' : eqn) : Prop := lt e' = Terms.app s (lt e) /\ rt e' = Terms.app s (rt e) /\ pos e' = pos e.
Lemma img_holds M v s e e' : img s e e' -> (holds M v e' <-> holds M (fun x => eval M v (s x)) e).
Proof. intros (A & B & C). unfold holds. rewrite A, B, C. apply lit_holds_app. Qed.
Lemma img_exists M v s l l' : Forall2 (img s) l l' -> (Exists (holds M v) l' <-> Exists (holds M (fun x => eval M v (s x))) l).
Proof.
  induction 1 as [|e e' l l' I H IH]; [split; intros X; inversion X|]. rewrite !Exists_cons, IH, (img_holds M v s e e' I). reflexivity.
Qed.
Lemma app_sort_wf s t : wfsubst SS s -> tsort SS (Terms.app s t) = tsort SS t.
Proof. intros H. destruct t as [x|f a]; cbn; auto. apply H. Qed.
Lemma img_ok s e e' : wfsubst SS s -> img s e e' -> primary (lt e') -> primary (rt e') -> eqn_ok E e -> fo_lit E e -> eqn_ok E e' /\ fo_lit E e' /\ equlit e' = equlit e.
Proof.
  intros Hs (A & B & C) P1 P2 (W1 & W2 & W3 & _) FO. split; [|].
  { split; [rewrite A; apply app_wf; auto|]. split; [rewrite B; apply app_wf; auto|]. split; auto. rewrite A, B, !app_sort_wf; auto. }
  destruct (equlit e) eqn:Q.
  - unfold fo_lit in FO. rewrite Q in FO. assert (X : equlit e' = true).
    { unfold equlit. rewrite B. apply negb_true_iff, term_eqb_neq. apply (not_truth E HE). rewrite app_sort_wf; auto. congruence. }
    split; auto. unfold fo_lit. rewrite X, A, app_sort_wf; auto.
  - destruct (fo_atom E e FO Q) as (p & l & L & R & P). assert (X : equlit e' = false) by (unfold equlit; rewrite B, R; reflexivity).
    split; auto. unfold fo_lit. rewrite X, A, L. cbn. eauto.
Qed.

(** *** The copies *)
Lemma img_disjoint c : gc c -> Forall2 (img (ren_alt alt)) c (disjoint E alt c).
Proof.
  intros G. assert (H : forall e, In e c -> img (ren_alt alt) e (disjoint_lit E alt e)).
  { intros e He. destruct (gc_in c e G He) as [OK FO]. destruct (disjoint_fo E alt HE base HA e FO OK) as (A & B & C). split; auto. }
  unfold disjoint. clear G. induction c as [|e c IH]; cbn; constructor; [apply H; left; auto|apply IH; intros; apply H; right; auto].
Qed.
Lemma img_copy c : gc c -> Forall2 (img Var) c (map (lit_copy E) c).
Proof.
  intros G. assert (H : forall e, In e c -> img Var e (lit_copy E e)).
  { intros e He. destruct (gc_in c e G He) as [OK FO]. destruct (lit_copy_fo E HE e FO OK) as (A & B & C). split; [rewrite app_var; auto|]. split; [rewrite app_var; auto|auto]. }
  clear G. induction c as [|e c IH]; cbn; constructor; [apply H; left; auto|apply IH; intros; apply H; right; auto].
Qed.
Lemma gc_disjoint c : gc c -> gc (disjoint E alt c).
Proof.
  intros G. apply gc_intro. intros e He. unfold disjoint in He. apply in_map_iff in He. destruct He as [e0 [<- He]]. destruct (gc_in c e0 G He) as [OK FO].
  destruct (disjoint_ok E alt HE base HA e0 FO OK). auto.
Qed.
Lemma gc_copy c : gc c -> gc (map (lit_copy E) c).
Proof.
  intros G. apply gc_intro. intros e He. apply in_map_iff in He. destruct He as [e0 [<- He]]. destruct (gc_in c e0 G He) as [OK FO].
  destruct (lit_copy_fo E HE e0 FO OK) as (A & B & C). destruct (lit_same_ok E e0 (lit_copy E e0) A B FO OK). auto.
Qed.

(** *** Finding the literals *)
Definition renaming (s : subst) : Prop := forall x, exists y, s x = Var y.
Lemma find_img s f b : renaming s -> forall c c', Forall2 (img s) c c' -> find_lit f b c' = find_lit f b c.
Proof.
  intros Rs c c' H. induction H as [|e e' c c' (A & B & C) H IH]; cbn; auto. rewrite A, C, IH. destruct (lt e) as [x|g a]; cbn; auto.
  destruct (Rs x) as [y ->]. reflexivity.
Qed.
Lemma find_spec f b : forall c j, find_lit f (Some b) c = Some j -> exists L la, nth_error c j = Some L /\ lt L = Fun f la /\ pos L = b.
Proof.
  induction c as [|e c IH]; cbn; intros j H; [discriminate|]. destruct (lt e) as [x|g a] eqn:L; cbn in H.
  - destruct (find_lit f (Some b) c) as [k|]; [|discriminate]. injection H as <-. cbn. auto.
  - destruct (Nat.eqb_spec g f) as [->|N]; cbn in H.
    + destruct (Bool.eqb_spec b (pos e)) as [->|N]; [injection H as <-; cbn; eauto|]. destruct (find_lit f (Some b) c) as [k|]; [|discriminate]. injection H as <-. cbn. auto.
    + destruct (find_lit f (Some b) c) as [k|]; [|discriminate]. injection H as <-. cbn. auto.
Qed.
Lemma find_exists f b c e : In e c -> (exists a, lt e = Fun f a) -> pos e = b -> exists j, find_lit f (Some b) c = Some j.
Proof.
  induction c as [|e0 c IH]; intros I L P; [destruct I|]. cbn. destruct (match lt e0 with Fun g _ => Nat.eqb g f | Var _ => false end && Bool.eqb b (pos e0)) eqn:T; [eauto|].
  destruct I as [->|I].
  - destruct L as [a L]. rewrite L, P, Nat.eqb_refl in T. destruct b; discriminate.
  - destruct (IH I L P) as [j ->]. cbn. eauto.
Qed.

(** *** The instantiated rests *)
Lemma denotes_primary (b : binding) s : acyclic b -> denotes b s -> pbind evenP b -> forall x, is_fresh x = false -> primary (s x).
Proof.
  intros [rank HR] HD HP x. remember (rank x) as r eqn:Er. revert x Er. induction r as [r IH] using lt_wf_ind. intros x Er Fx. specialize (HD x) as Hx.
  destruct (b x) as [t|] eqn:B.
  - destruct (HP x t B) as [_ PT]. rewrite Hx. intros z Hz. apply vars_app in Hz. destruct Hz as [y [Hy Hz]]. apply (IH (rank y)) with y; auto.
    rewrite Er. eapply HR; eauto.
  - rewrite Hx. intros y [<-|[]]. auto.
Qed.
Lemma sg_id (b : binding) s t : acyclic b -> denotes b s -> pbind evenP b -> primary t -> Terms.app (sg s) t = Terms.app s t.
Proof.
  intros HAc HD HP PT. unfold sg. rewrite app_comp. apply ren_id. intros z Hz. apply vars_app in Hz. destruct Hz as [y [Hy Hz]].
  apply (denotes_primary b s HAc HD HP y (PT y Hy)); auto.
Qed.

(** what the maps of the rests yield *)
Lemma map_img n b s l l' : acyclic b -> wfsubst SS s -> denotes b s -> pbind evenP b -> gc l -> mapo (eqn_map E n b) l = Some l' -> Forall2 (img s) l l' /\ gc l'.
Proof.
  intros HAc Ws HD HP G H. apply mapo_spec in H. assert (X : Forall2 (fun e e' => img s e e' /\ eqn_ok E e' /\ fo_lit E e') l l').
  { induction H as [|e e' l l' He H IH]; constructor.
    - destruct (gc_in _ e G ltac:(left; auto)) as [OK FO]. pose proof OK as (W1 & W2 & W3 & P1 & P2). unfold eqn_map in He.
      destruct (inst n b (lt e)) as [t|] eqn:I1; [|discriminate]. destruct (inst n b (rt e)) as [u|] eqn:I2; [|discriminate]. injection He as <-.
      apply (inst_sg b s) in I1; auto. apply (inst_sg b s) in I2; auto. rewrite (sg_id b s) in I1, I2; auto. subst t u.
      destruct (alloc_fo E HE s e (fun x => proj1 (Ws x)) FO OK) as (A1 & A2 & A3). cbv zeta in A1, A2, A3.
      assert (PR : forall t, primary t -> primary (Terms.app s t)) by (intros t Pt; rewrite <- (sg_id b s) by auto; apply sg_primary).
      set (h := mkeqn _ _ _ _ _ _ _ _ _). assert (I : img s e h) by (split; [|split]; cbn; auto). split; auto.
      destruct (img_ok s e h Ws I) as (O1 & O2 & _); auto; cbn; rewrite ?A1, ?A2; auto.
    - apply IH. apply (gc_sub _ _ G). intros; right; auto. }
  split.
  - eapply Forall2_impl; [|exact X]. cbn. tauto.
  - apply gc_intro. intros e' He'. destruct (Forall2_in_r _ _ _ _ X He') as [e [_ Y]]. tauto.
Qed.
Lemma gc_rest j c : gc c -> gc (rest j c).
Proof. intros G. apply (gc_sub _ _ G). intros e He. unfold rest in He. apply in_rev in He. eapply except_in; eauto. Qed.
Lemma gc_finish c : gc c -> gc (finish E c).
Proof. intros G. apply (gc_sub _ _ G). intros e He. eapply finish_in; eauto. Qed.
Lemma rest_exists (P : eqn -> Prop) j c : Exists P (rest j c) <-> Exists P (except j c).
Proof. apply Exists_rev. Qed.
Lemma rest_img s j c c' : Forall2 (img s) c c' -> Forall2 (img s) (rest j c) (rest j c').
Proof. intros H. apply Forall2_rev, Forall2_except, H. Qed.

(** the meaning of the joined rests *)
Lemma join_sem n b s P N j k R : acyclic b -> wfsubst SS s -> denotes b s -> pbind evenP b -> gc P -> gc N ->
  join_rests E n b (disjoint E alt P) (map (lit_copy E) N) j k = Some R ->
  gc R /\ (forall M v, model_ok SS (dist E) M ->
     (Exists (holds M v) R <-> Exists (holds M (fun x => eval M v (s (alt x)))) (except j P) \/ Exists (holds M (fun x => eval M v (s x))) (except k N)))
  /\ exists xs ys, R = finish E (xs ++ ys) /\ Forall2 (img (fun x => s (alt x))) (rest j P) xs /\ Forall2 (img s) (rest k N) ys.
Proof.
  intros HAc Ws HD HP GP GN H. unfold join_rests in H.
  destruct (mapo (eqn_map E n b) (rest j (disjoint E alt P))) as [xs|] eqn:X; [|discriminate]. destruct (mapo (eqn_map E n b) (rest k (map (lit_copy E) N))) as [ys|] eqn:Y; [|discriminate]. injection H as <-.
  apply (map_img n b s) in X; auto; [|apply gc_rest, gc_disjoint; auto]. apply (map_img n b s) in Y; auto; [|apply gc_rest, gc_copy; auto].
  destruct X as [X GX], Y as [Y GY].
  assert (TR : forall s1 s2 l1 l2 l3, Forall2 (img s1) l1 l2 -> Forall2 (img s2) l2 l3 -> Forall2 (img (fun x => Terms.app s2 (s1 x))) l1 l3).
  { intros s1 s2 l1 l2 l3 A. revert l3. induction A as [|e e' l1 l2 (A1 & A2 & A3) A IH]; intros l3 B; inversion B as [|? e'' ? l3' (B1 & B2 & B3) B']; subst; constructor; auto.
    split; [|split; [|congruence]]; [rewrite B1, A1|rewrite B2, A2]; symmetry; apply app_comp. }
  assert (X' : Forall2 (img (fun x => s (alt x))) (rest j P) xs) by (apply (TR (ren_alt alt) s _ _ _ (rest_img _ j _ _ (img_disjoint P GP)) X)).
  assert (Y' : Forall2 (img s) (rest k N) ys) by (apply (TR Var s _ _ _ (rest_img _ k _ _ (img_copy N GN)) Y)).
  split; [apply gc_finish, gc_app; auto|]. split; [|eauto].
  intros M v HM. rewrite (finish_holds E M v (xs ++ ys) HM), Exists_app, (img_exists M v _ _ _ X'), (img_exists M v _ _ _ Y'), !rest_exists. reflexivity.
Qed.

(** ** Soundness and completeness *)

Lemma exists_split {A} (Q : A -> Prop) : forall c j L, nth_error c j = Some L -> (Exists Q c <-> Q L \/ Exists Q (except j c)).
Proof.
  induction c as [|e c IH]; intros [|j] L H; cbn in *; try discriminate.
  - injection H as ->. apply Exists_cons.
  - rewrite !Exists_cons, (IH j L H). tauto.
Qed.
Lemma holds_ext M v1 v2 e : (forall x, In x (vars (lt e) ++ vars (rt e)) -> v1 x = v2 x) -> (holds M v1 e <-> holds M v2 e).
Proof.
  intros H. unfold holds, lit_holds. rewrite (eval_ext M v1 v2 (lt e)), (eval_ext M v1 v2 (rt e)); [reflexivity| |]; intros x Hx; apply H, in_app_iff; auto.
Qed.
Lemma exists_ext M v1 v2 c : (forall e x, In e c -> In x (vars (lt e) ++ vars (rt e)) -> v1 x = v2 x) -> (Exists (holds M v1) c <-> Exists (holds M v2) c).
Proof.
  intros H. rewrite !Exists_exists. split; intros [e [I He]]; exists e; split; auto; apply (holds_ext M v1 v2 e); auto; intros; eapply H; eauto.
Qed.
Lemma over_except c k : over base c -> over base (except k c).
Proof. intros H e x I. apply H. eapply except_in; eauto. Qed.
Lemma wf_sorts f la lb : wf SS (Fun f la) -> wf SS (Fun f lb) -> length la = length lb /\ map (tsort SS) la = map (tsort SS) lb.
Proof.
  intros A B. apply wf_fun in A, B. assert (map (tsort SS) la = map (tsort SS) lb) by (transitivity (fargs SS f); [apply A|symmetry; apply B]). split; auto.
  apply (f_equal (@length sort)) in H. rewrite !map_length in H. auto.
Qed.

Definition covers (M : structure) (f : sym) (P N : clause) : Prop :=
  forall j k L K la lb, find_lit f (Some true) P = Some j -> nth_error P j = Some L -> lt L = Fun f la ->
    find_lit f (Some false) N = Some k -> nth_error N k = Some K -> lt K = Fun f lb ->
    forall vP vN, respects SS M vP -> respects SS M vN -> map (eval M vP) la = map (eval M vN) lb ->
    Exists (holds M vP) (except j P) \/ Exists (holds M vN) (except k N).

(** the two literals of the copies *)
Record found (P N : clause) (f : sym) (j k : nat) (p q : eqn) (L K : eqn) (la lb : list term) : Prop := {
  fd_j : find_lit f (Some true) P = Some j; fd_k : find_lit f (Some false) N = Some k;
  fd_L : nth_error P j = Some L; fd_K : nth_error N k = Some K;
  fd_la : lt L = Fun f la; fd_lb : lt K = Fun f lb; fd_pL : pos L = true; fd_pK : pos K = false;
  fd_p : lt p = Fun f (map (Terms.app (ren_alt alt)) la); fd_q : lt q = Fun f lb;
  fd_wp : wf SS (lt p) /\ primary (lt p); fd_wq : wf SS (lt q) /\ primary (lt q);
  fd_at : rt L = ttrue /\ rt K = ttrue }.
Lemma setup P N f j k p q : gc P -> gc N -> fres SS f = bool_sort ->
  find_lit f (Some true) (disjoint E alt P) = Some j -> find_lit f (Some false) (map (lit_copy E) N) = Some k ->
  nth_error (disjoint E alt P) j = Some p -> nth_error (map (lit_copy E) N) k = Some q -> exists L K la lb, found P N f j k p q L K la lb.
Proof.
  intros GP GN HB FP FN NP NN.
  assert (R1 : renaming (ren_alt alt)) by (intros x; exists (alt x); auto). assert (R2 : renaming Var) by (intros x; exists x; auto).
  pose proof (img_disjoint P GP) as IP. pose proof (img_copy N GN) as IN.
  pose proof FP as FP'. pose proof FN as FN'. rewrite (find_img _ f (Some true) R1 _ _ IP) in FP'. rewrite (find_img _ f (Some false) R2 _ _ IN) in FN'.
  destruct (find_spec _ _ _ _ FP') as (L & la & NL & LL & PL). destruct (find_spec _ _ _ _ FN') as (K & lb & NK & LK & PK).
  destruct (Forall2_nth _ _ _ _ _ IP NP) as [L' [NL' (A1 & A2 & A3)]]. destruct (Forall2_nth _ _ _ _ _ IN NN) as [K' [NK' (B1 & B2 & B3)]].
  assert (L' = L) by congruence. assert (K' = K) by congruence. subst L' K'. rewrite app_var in B1, B2.
  destruct (gc_in _ p (gc_disjoint P GP) (nth_error_In _ _ NP)) as [(W1 & _ & _ & W2 & _) _]. destruct (gc_in _ q (gc_copy N GN) (nth_error_In _ _ NN)) as [(W3 & _ & _ & W4 & _) _].
  assert (AT : forall c e g a, gc c -> In e c -> lt e = Fun g a -> fres SS g = bool_sort -> rt e = ttrue).
  { intros c e g a G I Le Bg. destruct (gc_in c e G I) as [_ FO]. destruct (equlit e) eqn:Q; [unfold fo_lit in FO; rewrite Q, Le in FO; contradiction|].
    unfold equlit in Q. apply negb_false_iff, term_eqb_eq in Q. exact Q. }
  exists L, K, la, lb. constructor; auto.
  - rewrite A1, LL. reflexivity.
  - rewrite B1. auto.
  - split; [apply (AT P L f la); auto; eapply nth_error_In; eauto|apply (AT N K f lb); auto; eapply nth_error_In; eauto].
Qed.

(** unifiers that do not change the values *)
Lemma unify_lift (M : structure) (w u : var -> dom M) (tau : subst) n t1 t2 : model_ok SS (dist E) M -> wfsubst SS tau -> (forall x, eval M u (tau x) = w x) ->
  wf SS t1 -> wf SS t2 -> primary t1 -> primary t2 -> Terms.app tau t1 = Terms.app tau t2 ->
  match mgu n SS (pp E) start t1 t2 with
  | Success st => forall s, denotes (bnd st) s -> forall t, eval M w (Terms.app s t) = eval M w t
  | Failure _ => False
  | _ => True
  end.
Proof.
  intros HM HT HU W1 W2 P1 P2 EQ. pose proof (mgu_correct n SS (pp E) start t1 t2 (inv_empty SS) W1 W2) as MC.
  assert (S0 : solves (bnd start) tau) by (intros x t Hx; discriminate).
  destruct (mgu n SS (pp E) start t1 t2) as [st|st| |]; auto.
  - destruct MC as (I & _ & SO). intros s HD t. pose proof (proj2 (SO tau) (conj S0 EQ)) as SV.
    assert (EV : forall t', eval M w t' = eval M u (Terms.app tau t')) by (intros t'; rewrite eval_app; apply eval_ext; intros x _; auto).
    rewrite !EV. rewrite (solves_denotes _ s tau t (inv_acyclic _ _ I) HD SV). reflexivity.
  - destruct MC as (_ & _ & NO). apply (NO HFS tau HT S0 EQ).
Qed.
Lemma mgu_state n t1 t2 st : wf SS t1 -> wf SS t2 -> primary t1 -> primary t2 -> mgu n SS (pp E) start t1 t2 = Success st ->
  exists s, denotes (bnd st) s /\ wfsubst SS s /\ acyclic (bnd st) /\ pbind evenP (bnd st) /\ Terms.app s t1 = Terms.app s t2.
Proof.
  intros W1 W2 P1 P2 H. destruct (good_mgu E n start t1 t2 st (good_start E) W1 W2 P1 P2 H) as [[I PB] SO]. pose proof (inv_acyclic _ _ I) as HAc.
  destruct (acyclic_denotes _ HAc) as [s HD]. exists s. split; auto. split; [|split; auto; split; auto].
  - apply (denotes_wf SS (bnd st) s HAc); auto. apply I.
  - apply (SO s). apply denotes_solves. auto.
Qed.
Lemma start_state : exists s, denotes (bnd start) s /\ wfsubst SS s /\ acyclic (bnd start) /\ pbind evenP (bnd start).
Proof.
  exists Var. split; [intros x; reflexivity|]. split; [intros x; split; reflexivity|]. split; [exists (fun _ => 0); intros x t y H; discriminate|intros x t H; discriminate].
Qed.

Section Pair.
Variables (n : nat) (P N : clause) (f : sym) (j k : nat) (p q L K : eqn) (la lb : list term).
Hypotheses (GP : gc P) (GN : gc N) (ON : over base N) (FD : found P N f j k p q L K la lb).

Lemma vals M (w vP vN : var -> dom M) : (forall x, base x -> w x = vN x) -> (forall x, w (alt x) = vP x) ->
  map (eval M w) (map (Terms.app (ren_alt alt)) la) = map (eval M vP) la /\ map (eval M w) lb = map (eval M vN) lb.
Proof.
  intros WN WP. split.
  - rewrite map_map. apply map_ext. intros t. rewrite eval_app. apply eval_ext. intros x _. cbn. auto.
  - apply map_ext_in. intros t Ht. apply eval_ext. intros x Hx. apply WN. apply (ON K); [eapply nth_error_In; apply FD|]. rewrite (fd_lb _ _ _ _ _ _ _ _ _ _ _ FD).
    apply in_app_iff. left. cbn. apply in_flat_map. eauto.
Qed.
Lemma lift_join M (w vP vN : var -> dom M) b s R : model_ok SS (dist E) M -> (forall x, base x -> w x = vN x) -> (forall x, w (alt x) = vP x) ->
  acyclic b -> wfsubst SS s -> denotes b s -> pbind evenP b -> (forall t, eval M w (Terms.app s t) = eval M w t) ->
  join_rests E n b (disjoint E alt P) (map (lit_copy E) N) j k = Some R -> Exists (holds M w) R ->
  Exists (holds M vP) (except j P) \/ Exists (holds M vN) (except k N).
Proof.
  intros HM WN WP HAc Ws HD HP LI HJ HR. destruct (join_sem n b s P N j k R HAc Ws HD HP GP GN HJ) as (_ & SEM & _).
  apply (SEM M w HM) in HR. destruct HR as [HR|HR]; [left|right].
  - eapply exists_ext; [|exact HR]. intros e x _ _. cbn. specialize (LI (Var (alt x))). cbn in LI. rewrite LI. auto.
  - eapply exists_ext; [|exact HR]. intros e x Ie Hx. cbn. specialize (LI (Var x)). cbn in LI. rewrite LI. symmetry. apply WN. eapply over_except; eauto.
Qed.

(** soundness *)
Lemma resolve_true M (vP vN : var -> dom M) : respects SS M vP -> respects SS M vN -> clause_true SS M P -> clause_true SS M N ->
  map (eval M vP) la = map (eval M vN) lb -> Exists (holds M vP) (except j P) \/ Exists (holds M vN) (except k N).
Proof.
  intros RP RN TP TN EQ. specialize (TP vP RP). specialize (TN vN RN).
  apply (exists_split _ _ j L (fd_L _ _ _ _ _ _ _ _ _ _ _ FD)) in TP. apply (exists_split _ _ k K (fd_K _ _ _ _ _ _ _ _ _ _ _ FD)) in TN.
  destruct TP as [TP|]; auto. destruct TN as [TN|]; auto. exfalso. destruct (fd_at _ _ _ _ _ _ _ _ _ _ _ FD) as [R1 R2].
  unfold holds, lit_holds in TP, TN. rewrite (fd_la _ _ _ _ _ _ _ _ _ _ _ FD), (fd_pL _ _ _ _ _ _ _ _ _ _ _ FD), R1 in TP.
  rewrite (fd_lb _ _ _ _ _ _ _ _ _ _ _ FD), (fd_pK _ _ _ _ _ _ _ _ _ _ _ FD), R2 in TN. cbn [eval] in TP, TN. rewrite EQ in TP. auto.
Qed.
Lemma join_sound M b s R : model_ok SS (dist E) M -> acyclic b -> wfsubst SS s -> denotes b s -> pbind evenP b -> Terms.app s (lt p) = Terms.app s (lt q) ->
  join_rests E n b (disjoint E alt P) (map (lit_copy E) N) j k = Some R -> clause_true SS M P -> clause_true SS M N -> clause_true SS M R.
Proof.
  intros HM HAc Ws HD HP EQ HJ TP TN v Hv. destruct (join_sem n b s P N j k R HAc Ws HD HP GP GN HJ) as (_ & SEM & _). apply (SEM M v HM).
  pose proof (respects_subst SS (dist E) M v s HM Hv Ws) as RN.
  assert (RP : respects SS M (fun x => eval M v (s (alt x)))).
  { intros x. cbn. specialize (RN (alt x)). cbn in RN. rewrite (proj1 HA) in RN. exact RN. }
  apply (resolve_true M _ _ RP RN TP TN).
  rewrite (fd_p _ _ _ _ _ _ _ _ _ _ _ FD), (fd_q _ _ _ _ _ _ _ _ _ _ _ FD) in EQ. cbn [Terms.app] in EQ. injection EQ as EQ.
  apply (f_equal (map (eval M v))) in EQ. rewrite !map_map in EQ.
  rewrite (map_ext (eval M (fun x => eval M v (s x))) (fun t => eval M v (Terms.app s t))) by (intros t; symmetry; apply eval_app).
  etransitivity; [|exact EQ]. apply map_ext. intros t. rewrite !eval_app. apply eval_ext. intros x _. cbn. reflexivity.
Qed.

(** one side has distinct variables *)
Lemma distinct_unifier M (w : var -> dom M) t1 t2 g xs l : t1 = Fun g (map Var xs) -> t2 = Fun g l -> wf SS t1 -> wf SS t2 -> distinct xs = true ->
  (forall x, In x xs -> ~ In x (vars t2)) -> map w xs = map (eval M w) l ->
  exists tau, wfsubst SS tau /\ Terms.app tau t1 = Terms.app tau t2 /\ forall x, eval M w (tau x) = w x.
Proof.
  intros -> -> W1 W2 DX DJ EV. exists (zip_subst xs l). destruct (wf_sorts g (map Var xs) l W1 W2) as [LE SO]. rewrite map_length in LE.
  pose proof W2 as W2'. apply wf_fun in W2'. destruct W2' as [WL _]. split; [|split].
  - apply zip_wfsubst; auto. rewrite <- SO, map_map. reflexivity.
  - cbn [Terms.app]. f_equal. transitivity l.
    + clear EV DJ SO W1 W2 WL. revert l LE. induction xs as [|x xs IH]; intros [|a l] LE; try discriminate; auto. cbn [map Terms.app zip_subst]. rewrite Nat.eqb_refl.
      cbn in DX. apply andb_true_iff in DX. destruct DX as [NX DX]. f_equal. etransitivity; [|apply (IH DX l); auto]. rewrite !map_map. apply map_ext_in. intros y Hy.
      cbn. destruct (Nat.eqb_spec y x) as [->|]; auto. apply negb_true_iff in NX. unfold mem in NX. exfalso. apply Bool.not_true_iff_false in NX. apply NX, existsb_exists. exists x. split; auto. apply Nat.eqb_refl.
    + rewrite <- (map_id l) at 1. apply map_ext_in. intros t Ht. rewrite <- (app_var t) at 1. apply app_ext. intros x Hx. symmetry. apply zip_out. intros C. apply (DJ x C). cbn. apply in_flat_map. eauto.
  - clear DJ SO W1 W2 WL DX. revert l LE EV. induction xs as [|y xs IH]; intros [|a l] LE EV x; try discriminate; auto. cbn [zip_subst]. cbn in EV. injection EV as E1 E2.
    destruct (Nat.eqb_spec x y) as [->|]; auto.
Qed.

Lemma distinct_map (g : var -> var) xs : (forall x y, g x = g y -> x = y) -> distinct xs = true -> distinct (map g xs) = true.
Proof.
  intros GI. induction xs as [|x xs IH]; cbn; auto. intros H. apply andb_true_iff in H. destruct H as [ND D]. rewrite IH by auto. rewrite andb_true_r.
  apply negb_true_iff in ND. apply negb_true_iff. unfold mem in *. apply Bool.not_true_iff_false. apply Bool.not_true_iff_false in ND. intros X. apply ND.
  apply existsb_exists in X. destruct X as [y [Hy Q]]. apply in_map_iff in Hy. destruct Hy as [z [<- Hz]]. apply Nat.eqb_eq, GI in Q. subst z. apply existsb_exists. exists x. split; auto. apply Nat.eqb_refl.
Qed.
Lemma alt_vars t x : In x (vars (Terms.app (ren_alt alt) t)) -> ~ base x.
Proof. intros H. apply vars_app in H. destruct H as [y [_ [<-|[]]]]. apply (proj1 (proj2 (proj2 HA))). Qed.
Lemma q_base x : In x (vars (lt q)) -> base x.
Proof.
  intros Hx. apply (ON K); [eapply nth_error_In; apply FD|]. rewrite (fd_lb _ _ _ _ _ _ _ _ _ _ _ FD). rewrite (fd_q _ _ _ _ _ _ _ _ _ _ _ FD) in Hx. apply in_app_iff. auto.
Qed.
Definition plain (l : list term) : Prop := exists xs, l = map Var xs /\ distinct xs = true.
Lemma pair_unifier M (w : var -> dom M) : plain la \/ plain lb -> map (eval M w) (map (Terms.app (ren_alt alt)) la) = map (eval M w) lb ->
  exists tau, wfsubst SS tau /\ Terms.app tau (lt p) = Terms.app tau (lt q) /\ forall x, eval M w (tau x) = w x.
Proof.
  intros PL EV. destruct (fd_wp _ _ _ _ _ _ _ _ _ _ _ FD) as [W1 _]. destruct (fd_wq _ _ _ _ _ _ _ _ _ _ _ FD) as [W2 _].
  pose proof (fd_p _ _ _ _ _ _ _ _ _ _ _ FD) as LP. pose proof (fd_q _ _ _ _ _ _ _ _ _ _ _ FD) as LQ. destruct PL as [(xs & EX & DX)|(ys & EY & DY)].
  - apply (distinct_unifier M w _ _ f (map alt xs) lb); auto.
    + rewrite LP, EX, !map_map. reflexivity.
    + apply distinct_map; auto. apply (proj2 (proj2 (proj2 HA))).
    + intros x Hx C. apply in_map_iff in Hx. destruct Hx as [y [<- _]]. apply (proj1 (proj2 (proj2 HA)) y), q_base, C.
    + rewrite EX, map_map in EV. rewrite <- EV, !map_map. reflexivity.
  - destruct (distinct_unifier M w (lt q) (lt p) f ys (map (Terms.app (ren_alt alt)) la)) as (tau & T1 & T2 & T3); auto.
    + rewrite LQ, EY. reflexivity.
    + intros x Hx C. rewrite LP in C. cbn in C. apply in_flat_map in C. destruct C as [t [Ht C]]. apply in_map_iff in Ht. destruct Ht as [t0 [<- _]]. apply (alt_vars _ _ C).
      apply q_base. rewrite LQ, EY. cbn. apply in_flat_map. exists (Var x). split; [apply in_map; auto|left; auto].
    + rewrite EV, EY, map_map. reflexivity.
    + exists tau. split; auto.
Qed.
Definition point : structure := {| dom := unit; ifun := fun _ _ => tt; isort := fun _ _ => True |}.
Lemma pair_unifiable : plain la \/ plain lb -> exists tau, wfsubst SS tau /\ Terms.app tau (lt p) = Terms.app tau (lt q).
Proof.
  intros PL. destruct (pair_unifier point (fun _ => tt) PL) as (tau & A & B & _); [|eauto].
  destruct (fd_wp _ _ _ _ _ _ _ _ _ _ _ FD) as [W1 _]. destruct (fd_wq _ _ _ _ _ _ _ _ _ _ _ FD) as [W2 _]. rewrite (fd_p _ _ _ _ _ _ _ _ _ _ _ FD) in W1. rewrite (fd_q _ _ _ _ _ _ _ _ _ _ _ FD) in W2.
  destruct (wf_sorts _ _ _ W1 W2) as [LE _]. assert (G : forall l l', length l = length l' -> map (eval point (fun _ => tt)) l = map (eval point (fun _ => tt)) l'); [|apply G; auto].
  clear. induction l as [|a l IH]; intros [|b l'] LE; try discriminate; auto.
  cbn [map]. f_equal; [destruct (eval point _ a), (eval point _ b); auto|]. apply IH. auto.
Qed.

(** the resolvent of two literals, one with distinct variables, in any interpretation *)
Lemma covers_plain M m t1 t2 st R : model_ok SS (dist E) M -> plain la \/ plain lb -> (t1 = lt p /\ t2 = lt q \/ t1 = lt q /\ t2 = lt p) ->
  mgu m SS (pp E) start t1 t2 = Success st ->
  join_rests E n (bnd st) (disjoint E alt P) (map (lit_copy E) N) j k = Some R -> clause_true SS M R -> covers M f P N.
Proof.
  intros HM PL TT HU HJ TR j' k' L' K' la' lb' F1 F2 F3 F4 F5 F6 vP vN RP RN EQ.
  assert (j' = j) by (pose proof (fd_j _ _ _ _ _ _ _ _ _ _ _ FD); congruence). assert (k' = k) by (pose proof (fd_k _ _ _ _ _ _ _ _ _ _ _ FD); congruence). subst j' k'.
  assert (L' = L) by (pose proof (fd_L _ _ _ _ _ _ _ _ _ _ _ FD); congruence). assert (K' = K) by (pose proof (fd_K _ _ _ _ _ _ _ _ _ _ _ FD); congruence). subst L' K'.
  rewrite (fd_la _ _ _ _ _ _ _ _ _ _ _ FD) in F3. rewrite (fd_lb _ _ _ _ _ _ _ _ _ _ _ FD) in F6. injection F3 as <-. injection F6 as <-.
  destruct (merge E alt base HA M vP vN RP RN) as (w & RW & WN & WP). destruct (vals M w vP vN WN WP) as [V1 V2].
  destruct (pair_unifier M w PL) as (tau & T1 & T2 & T3); [congruence|].
  destruct (fd_wp _ _ _ _ _ _ _ _ _ _ _ FD) as [W1 P1]. destruct (fd_wq _ _ _ _ _ _ _ _ _ _ _ FD) as [W2 P2].
  assert (W1' : wf SS t1 /\ wf SS t2 /\ primary t1 /\ primary t2 /\ Terms.app tau t1 = Terms.app tau t2) by (destruct TT as [[-> ->]|[-> ->]]; auto 8).
  destruct W1' as (X1 & X2 & X3 & X4 & X5).
  pose proof (unify_lift M w w tau m t1 t2 HM T1 T3 X1 X2 X3 X4 X5) as UL. rewrite HU in UL.
  destruct (mgu_state m t1 t2 st X1 X2 X3 X4 HU) as (s & S1 & S2 & S3 & S4 & _).
  apply (lift_join M w vP vN (bnd st) s R HM WN WP S3 S2 S1 S4 (UL s S1) HJ). apply TR. auto.
Qed.
(** the resolvent in a term interpretation *)
Lemma covers_term A m o : o = mgu m SS (pp E) start (lt q) (lt p) ->
  match o with
  | Success st => forall R, join_rests E n (bnd st) (disjoint E alt P) (map (lit_copy E) N) j k = Some R -> clause_true SS (tm E A) R -> covers (tm E A) f P N
  | Failure _ => covers (tm E A) f P N
  | _ => True
  end.
Proof.
  intros HU. assert (G : forall vP vN, respects SS (tm E A) vP -> respects SS (tm E A) vN -> map (eval (tm E A) vP) la = map (eval (tm E A) vN) lb ->
    exists w, respects SS (tm E A) w /\ (forall x, base x -> w x = vN x) /\ (forall x, w (alt x) = vP x) /\
      match o with Success st => forall s, denotes (bnd st) s -> forall t, eval (tm E A) w (Terms.app s t) = eval (tm E A) w t | Failure _ => False | _ => True end).
  { intros vP vN RP RN EQ. destruct (merge E alt base HA (tm E A) vP vN RP RN) as (w & RW & WN & WP). destruct (vals (tm E A) w vP vN WN WP) as [V1 V2].
    exists w. split; auto. split; auto. split; auto. subst o. pose proof (tm_respects E HF A w RW) as WS.
    destruct (fd_wp _ _ _ _ _ _ _ _ _ _ _ FD) as [W1 P1]. destruct (fd_wq _ _ _ _ _ _ _ _ _ _ _ FD) as [W2 P2].
    apply (unify_lift (tm E A) w Var w); auto; [apply (tm_ok E HE HF)| |].
    - intros x. rewrite (tm_eval E HF); [apply app_var|intros z; split; reflexivity|apply WS|]. rewrite (proj1 (WS x)). apply (proj1 (proj2 HF)).
    - rewrite (fd_p _ _ _ _ _ _ _ _ _ _ _ FD) in *. rewrite (fd_q _ _ _ _ _ _ _ _ _ _ _ FD) in *. cbn [Terms.app]. f_equal.
      assert (TE : forall g l, wf SS (Fun g l) -> map (eval (tm E A) w) l = map (Terms.app w) l).
      { intros g l W. apply wf_fun in W. destruct W as [X1 X2]. rewrite Forall_forall in X1. apply map_ext_in. intros t Ht. apply (tm_eval E HF); auto. apply (proj1 HF g). rewrite <- X2. apply in_map. auto. }
      rewrite <- (TE f _ W2), <- (TE f _ W1). congruence. }
  assert (C : forall Z : Prop, (forall vP vN, respects SS (tm E A) vP -> respects SS (tm E A) vN -> map (eval (tm E A) vP) la = map (eval (tm E A) vN) lb -> Exists (holds (tm E A) vP) (except j P) \/ Exists (holds (tm E A) vN) (except k N)) -> covers (tm E A) f P N).
  { intros Z H j' k' L' K' la' lb' F1 F2 F3 F4 F5 F6 vP vN RP RN EQ.
    assert (j' = j) by (pose proof (fd_j _ _ _ _ _ _ _ _ _ _ _ FD); congruence). assert (k' = k) by (pose proof (fd_k _ _ _ _ _ _ _ _ _ _ _ FD); congruence). subst j' k'.
    assert (L' = L) by (pose proof (fd_L _ _ _ _ _ _ _ _ _ _ _ FD); congruence). assert (K' = K) by (pose proof (fd_K _ _ _ _ _ _ _ _ _ _ _ FD); congruence). subst L' K'.
    rewrite (fd_la _ _ _ _ _ _ _ _ _ _ _ FD) in F3. rewrite (fd_lb _ _ _ _ _ _ _ _ _ _ _ FD) in F6. injection F3 as <-. injection F6 as <-. apply H; auto. }
  destruct o as [st|st| |]; auto.
  - intros R HJ TR. apply (C True). intros vP vN RP RN EQ. destruct (G vP vN RP RN EQ) as (w & RW & WN & WP & UL).
    destruct (fd_wp _ _ _ _ _ _ _ _ _ _ _ FD) as [W1 P1]. destruct (fd_wq _ _ _ _ _ _ _ _ _ _ _ FD) as [W2 P2].
    destruct (mgu_state m (lt q) (lt p) st W2 W1 P2 P1 ltac:(auto)) as (s & S1 & S2 & S3 & S4 & _).
    apply (lift_join (tm E A) w vP vN (bnd st) s R (tm_ok E HE HF A) WN WP S3 S2 S1 S4 (UL s S1) HJ). apply TR. auto.
  - apply (C True). intros vP vN RP RN EQ. destruct (G vP vN RP RN EQ) as (w & _ & _ & _ & []).
Qed.

(** the flat resolvent, with disequations between the arguments *)
Definition diseqs (l1 l2 : list term) : clause := map (fun '(a, b) => eqn_alloc E a b false) (combine l1 l2).
Lemma diseqs_spec g l1 l2 : wf SS (Fun g l1) -> wf SS (Fun g l2) -> primary (Fun g l1) -> primary (Fun g l2) ->
  gc (diseqs l1 l2)
  /\ (forall M v, model_ok SS (dist E) M -> respects SS M v -> (Exists (holds M v) (diseqs l1 l2) <-> map (eval M v) l1 <> map (eval M v) l2))
  /\ (forall e, In e (diseqs l1 l2) -> equlit e = true).
Proof.
  intros A B PA PB.
  assert (G : Forall2 (fun a b => wf SS a /\ wf SS b /\ tsort SS a = tsort SS b /\ tsort SS a <> bool_sort /\ primary a /\ primary b) l1 l2).
  { apply wf_fun in A, B. destruct A as [A1 A2], B as [B1 B2].
    assert (NB : forall s, In s (fargs SS g) -> s <> bool_sort) by apply (proj1 HF g). rewrite <- A2 in B2, NB. clear A2. 
    assert (PA' : forall a, In a l1 -> primary a) by (intros a Ha x Hx; apply PA; cbn; apply in_flat_map; eauto).
    assert (PB' : forall a, In a l2 -> primary a) by (intros a Ha x Hx; apply PB; cbn; apply in_flat_map; eauto). clear PA PB.
    revert l2 B1 B2 PB'. induction l1 as [|a l1 IH]; intros [|b l2] B1 B2 PB'; try discriminate; constructor.
    - inversion A1; inversion B1; subst. cbn in B2. injection B2 as E1 E2. split; auto. split; auto. split; auto. split; [apply NB; left; auto|]. split; [apply PA'|apply PB']; left; auto.
    - inversion A1; inversion B1; subst. cbn in B2. injection B2 as E1 E2. apply IH; auto; intros; [apply NB|apply PA'|apply PB']; right; auto. }
  clear A B PA PB. unfold diseqs. split; [|split].
  - apply gc_intro. induction G as [|a b l1 l2 (A1 & A2 & A3 & A4 & A5 & A6) G IH]; cbn; intros e He; [destruct He|]. destruct He as [<-|He]; auto.
    split; [apply eqn_alloc_ok; auto|]. assert (NA : a <> ttrue /\ a <> tfalse) by (apply (not_truth E HE); auto). assert (NB : b <> ttrue /\ b <> tfalse) by (apply (not_truth E HE); congruence).
    destruct (alloc_id E a b false) as (X1 & X2 & X3); try tauto. unfold fo_lit, equlit. rewrite X1, X2. rewrite (proj2 (term_eqb_neq b ttrue)) by tauto. cbn. auto.
  - intros M v HM Hv. induction G as [|a b l1 l2 (A1 & A2 & A3 & A4 & A5 & A6) G IH]; cbn [combine map].
    + split; intros X; [inversion X|destruct X; auto].
    + rewrite Exists_cons, IH, (eqn_alloc_holds E M HE HM v a b false Hv A1 A2 A3). unfold lit_holds. split.
      * intros [X|X] C; injection C as C1 C2; auto.
      * intros X. destruct (classic (eval M v a = eval M v b)) as [Y|Y]; [right|left; auto]. intros C. apply X. congruence.
  - induction G as [|a b l1 l2 (A1 & A2 & A3 & A4 & A5 & A6) G IH]; cbn; intros e He; [destruct He|]. destruct He as [<-|He]; auto.
    assert (NA : a <> ttrue /\ a <> tfalse) by (apply (not_truth E HE); auto). assert (NB : b <> ttrue /\ b <> tfalse) by (apply (not_truth E HE); congruence).
    destruct (alloc_id E a b false) as (X1 & X2 & X3); try tauto. unfold equlit. rewrite X2. rewrite (proj2 (term_eqb_neq b ttrue)) by tauto. reflexivity.
Qed.
Definition flat : clause := finish E (rev (diseqs (args (lt p)) (args (lt q))) ++ rest j (disjoint E alt P) ++ rest k (map (lit_copy E) N)).
Lemma flat_lits : gc (diseqs (args (lt p)) (args (lt q)))
  /\ (forall M v, model_ok SS (dist E) M -> respects SS M v ->
      (Exists (holds M v) (diseqs (args (lt p)) (args (lt q))) <-> map (eval M v) (args (lt p)) <> map (eval M v) (args (lt q))))
  /\ (forall e, In e (diseqs (args (lt p)) (args (lt q))) -> equlit e = true).
Proof.
  destruct (fd_wp _ _ _ _ _ _ _ _ _ _ _ FD) as [W1 P1]. destruct (fd_wq _ _ _ _ _ _ _ _ _ _ _ FD) as [W2 P2].
  rewrite (fd_p _ _ _ _ _ _ _ _ _ _ _ FD) in *. rewrite (fd_q _ _ _ _ _ _ _ _ _ _ _ FD) in *. cbn [args]. apply (diseqs_spec f); auto.
Qed.
Lemma flat_sem M v : model_ok SS (dist E) M -> respects SS M v ->
  (Exists (holds M v) flat <-> map (eval M v) (args (lt p)) <> map (eval M v) (args (lt q)) \/ Exists (holds M (fun x => v (alt x))) (except j P) \/ Exists (holds M v) (except k N)).
Proof.
  intros HM Hv. unfold flat. rewrite (finish_holds E M v _ HM), !Exists_app, Exists_rev. destruct flat_lits as (_ & FS & _). rewrite (FS M v HM Hv).
  rewrite (img_exists M v _ _ _ (rest_img _ j _ _ (img_disjoint P GP))), (img_exists M v _ _ _ (rest_img _ k _ _ (img_copy N GN))), !rest_exists. reflexivity.
Qed.
Lemma flat_gc : gc flat.
Proof.
  apply gc_finish, gc_app; [|apply gc_app; [apply gc_rest, gc_disjoint|apply gc_rest, gc_copy]; auto]. apply (gc_sub _ _ (proj1 flat_lits)). intros e He. apply in_rev. auto.
Qed.
Lemma flat_sound M : model_ok SS (dist E) M -> clause_true SS M P -> clause_true SS M N -> clause_true SS M flat.
Proof.
  intros HM TP TN v Hv. apply (flat_sem M v HM Hv). rewrite (fd_p _ _ _ _ _ _ _ _ _ _ _ FD), (fd_q _ _ _ _ _ _ _ _ _ _ _ FD). cbn [args].
  destruct (classic (map (eval M v) (map (Terms.app (ren_alt alt)) la) = map (eval M v) lb)) as [EQ|]; [right|left; auto].
  assert (RP : respects SS M (fun x => v (alt x))) by (intros x; cbn; rewrite <- (proj1 HA x); apply Hv).
  apply (resolve_true M _ _ RP Hv TP TN). rewrite <- EQ, map_map. apply map_ext. intros t. rewrite eval_app. apply eval_ext. intros x _. reflexivity.
Qed.
Lemma covers_flat M : model_ok SS (dist E) M -> clause_true SS M flat -> covers M f P N.
Proof.
  intros HM TR j' k' L' K' la' lb' F1 F2 F3 F4 F5 F6 vP vN RP RN EQ.
  assert (j' = j) by (pose proof (fd_j _ _ _ _ _ _ _ _ _ _ _ FD); congruence). assert (k' = k) by (pose proof (fd_k _ _ _ _ _ _ _ _ _ _ _ FD); congruence). subst j' k'.
  assert (L' = L) by (pose proof (fd_L _ _ _ _ _ _ _ _ _ _ _ FD); congruence). assert (K' = K) by (pose proof (fd_K _ _ _ _ _ _ _ _ _ _ _ FD); congruence). subst L' K'.
  rewrite (fd_la _ _ _ _ _ _ _ _ _ _ _ FD) in F3. rewrite (fd_lb _ _ _ _ _ _ _ _ _ _ _ FD) in F6. injection F3 as <-. injection F6 as <-.
  destruct (merge E alt base HA M vP vN RP RN) as (w & RW & WN & WP). destruct (vals M w vP vN WN WP) as [V1 V2].
  specialize (TR w RW). apply (flat_sem M w HM RW) in TR. destruct TR as [TR|[TR|TR]].
  - destruct TR. rewrite (fd_p _ _ _ _ _ _ _ _ _ _ _ FD), (fd_q _ _ _ _ _ _ _ _ _ _ _ FD). cbn [args]. congruence.
  - left. eapply exists_ext; [|exact TR]. intros e x _ _. cbn. auto.
  - right. eapply exists_ext; [|exact TR]. intros e x Ie Hx. cbn. symmetry. apply WN. eapply over_except; eauto.
Qed.
End Pair.

(** ** The resolvents as computed *)

Lemma mgu_no_fail n tau t1 t2 : wfsubst SS tau -> wf SS t1 -> wf SS t2 -> Terms.app tau t1 = Terms.app tau t2 ->
  match mgu n SS (pp E) start t1 t2 with Failure _ => False | _ => True end.
Proof.
  intros HT W1 W2 EQ. pose proof (mgu_correct n SS (pp E) start t1 t2 (inv_empty SS) W1 W2) as MC. destruct (mgu n SS (pp E) start t1 t2); auto.
  destruct MC as (_ & _ & NO). apply (NO HFS tau HT); auto. intros x t Hx; discriminate.
Qed.
Lemma udv_plain t xs : unique_distinct_vars t = Some xs -> exists f, t = Fun f (map Var xs) /\ distinct xs = true.
Proof.
  unfold unique_distinct_vars. destruct t as [x|f a]; [discriminate|]. destruct (var_args a) as [ys|] eqn:V; [|discriminate]. destruct (distinct ys) eqn:D; [|discriminate].
  intros H. injection H as <-. exists f. split; auto. f_equal. apply var_args_some. auto.
Qed.
Lemma plain_alt la zs : map (Terms.app (ren_alt alt)) la = map Var zs -> distinct zs = true -> plain la.
Proof.
  intros H D. assert (X : exists xs, la = map Var xs /\ zs = map alt xs).
  { clear D. revert zs H. induction la as [|t la IH]; intros [|z zs] H; try discriminate; [exists []; auto|]. cbn in H. injection H as H1 H2. destruct t as [x|f a]; [|discriminate].
    cbn in H1. injection H1 as <-. destruct (IH zs H2) as (xs & -> & ->). exists (x :: xs). auto. }
  destruct X as (xs & -> & ->). exists xs. split; auto. revert D. clear. induction xs as [|x xs IH]; cbn; auto. intros H. apply andb_true_iff in H. destruct H as [A B].
  rewrite (IH B), andb_true_r. apply negb_true_iff. apply negb_true_iff in A. unfold mem in *. apply Bool.not_true_iff_false. apply Bool.not_true_iff_false in A. intros C. apply A.
  apply existsb_exists in C. destruct C as [y [Hy Q]]. apply Nat.eqb_eq in Q. subst y. apply existsb_exists. exists (alt x). split; [apply in_map; auto|apply Nat.eqb_refl].
Qed.

(** atoms of the resolvent come from the rests *)
Definition from_rests (P N : clause) (f : sym) (R : clause) : Prop :=
  forall j k, find_lit f (Some true) P = Some j -> find_lit f (Some false) N = Some k ->
  forall g e, In e R -> atom_of g e = true -> exists e', (In e' (except j P) \/ In e' (except k N)) /\ atom_of g e' = true.
Lemma atom_img s e e' g : wfsubst SS s -> img s e e' -> eqn_ok E e -> fo_lit E e -> atom_of g e' = true -> atom_of g e = true.
Proof.
  intros Hs (A & B & C) (W1 & W2 & W3 & _) FO. unfold atom_of. destruct (equlit e) eqn:Q.
  - unfold fo_lit in FO. rewrite Q in FO. assert (X : equlit e' = true).
    { unfold equlit. rewrite B. apply negb_true_iff, term_eqb_neq. apply (not_truth E HE). rewrite app_sort_wf; auto. congruence. }
    rewrite X. auto.
  - destruct (fo_atom E e FO Q) as (p & l & L & R & P). rewrite A, L. intros H. apply andb_true_iff in H. cbn in *. tauto.
Qed.
Lemma img_provenance s l l' g e' : wfsubst SS s -> gc l -> Forall2 (img s) l l' -> In e' l' -> atom_of g e' = true -> exists e, In e l /\ atom_of g e = true.
Proof.
  intros Hs G H I A. destruct (Forall2_in_r _ _ _ _ H I) as [e [Ie He]]. exists e. split; auto. destruct (gc_in l e G Ie). eapply atom_img; eauto.
Qed.
Lemma rest_in j (c : clause) e : In e (rest j c) <-> In e (except j c).
Proof. unfold rest. symmetry. apply in_rev. Qed.
Lemma join_from n b s P N f j k R : acyclic b -> wfsubst SS s -> denotes b s -> pbind evenP b -> gc P -> gc N ->
  find_lit f (Some true) P = Some j -> find_lit f (Some false) N = Some k ->
  join_rests E n b (disjoint E alt P) (map (lit_copy E) N) j k = Some R -> gc R /\ from_rests P N f R /\ (atoms_only P -> atoms_only N -> atoms_only R).
Proof.
  intros HAc Ws HD HP GP GN FJ FK H. destruct (join_sem n b s P N j k R HAc Ws HD HP GP GN H) as (GR & _ & xs & ys & -> & X & Y). split; auto.
  assert (WA : wfsubst SS (fun x => s (alt x))) by (intros x; rewrite <- (proj1 HA x); apply Ws). split.
  - intros j' k' FJ' FK' g e I A. assert (j' = j) by congruence. assert (k' = k) by congruence. subst j' k'. apply finish_in, in_app_iff in I. destruct I as [I|I].
    + destruct (img_provenance _ _ _ g e WA (gc_rest j P GP) X I A) as [e' [I' A']]. rewrite rest_in in I'. eauto.
    + destruct (img_provenance _ _ _ g e Ws (gc_rest k N GN) Y I A) as [e' [I' A']]. rewrite rest_in in I'. eauto.
  - intros AP AN e I. apply finish_in, in_app_iff in I. assert (Q : forall s' e0, img s' e0 e -> equlit e0 = false -> equlit e = false).
    { intros s' e0 (_ & B & _) Q. unfold equlit in *. apply negb_false_iff, term_eqb_eq in Q. rewrite B, Q. reflexivity. }
    destruct I as [I|I]; [destruct (Forall2_in_r _ _ _ _ X I) as [e' [I' He]]|destruct (Forall2_in_r _ _ _ _ Y I) as [e' [I' He]]]; rewrite rest_in in I'; apply except_in in I'; eauto.
Qed.

Definition good_resolvent (f : sym) (P N R : clause) : Prop :=
  gc R /\ from_rests P N f R /\ (forall M, model_ok SS (dist E) M -> clause_true SS M P -> clause_true SS M N -> clause_true SS M R).
Lemma neq_spec n P N f o : gc P -> gc N -> over base N -> fres SS f = bool_sort -> neq_resolvent E alt n P N f = Some o ->
  (forall R, o = Some R -> good_resolvent f P N R /\ (atoms_only P -> atoms_only N -> atoms_only R))
  /\ (forall A, (forall R, o = Some R -> clause_true SS (tm E A) R) -> covers (tm E A) f P N).
Proof.
  intros GP GN ON HB H. unfold neq_resolvent in H.
  destruct (find_lit f (Some true) (disjoint E alt P)) as [j|] eqn:FP; [|discriminate]. destruct (find_lit f (Some false) (map (lit_copy E) N)) as [k|] eqn:FN; [|discriminate].
  destruct (nth_error (disjoint E alt P) j) as [p|] eqn:NP; [|discriminate]. destruct (nth_error (map (lit_copy E) N) k) as [q|] eqn:NN; [|discriminate].
  destruct (setup P N f j k p q GP GN HB FP FN NP NN) as (L & K & la & lb & FD). pose proof FD as FD'. destruct FD'. destruct fd_wp0 as [W1 P1], fd_wq0 as [W2 P2].
  pose proof (fun A => covers_term n P N f j k p q L K la lb GP GN ON FD A n _ eq_refl) as CT.
  destruct (mgu n SS (pp E) start (lt q) (lt p)) as [st|st| |] eqn:U; try discriminate.
  - destruct (join_rests E n (bnd st) (disjoint E alt P) (map (lit_copy E) N) j k) as [R|] eqn:JR; [|discriminate]. injection H as <-. split.
    + intros R' HR. injection HR as <-. destruct (mgu_state n (lt q) (lt p) st W2 W1 P2 P1 U) as (s & S1 & S2 & S3 & S4 & S5).
      destruct (join_from n (bnd st) s P N f j k R S3 S2 S1 S4 GP GN fd_j0 fd_k0 JR) as (GR & FR & AT). split; auto. split; auto. split; auto.
      intros M HM TP TN. apply (join_sound n P N f j k p q L K la lb GP GN FD M (bnd st) s R); auto.
    + intros A HR. apply (CT A R eq_refl). auto.
  - injection H as <-. split; [discriminate|]. intros A _. apply (CT A).
Qed.
Lemma eq_spec n P N f o : gc P -> gc N -> over base N -> fres SS f = bool_sort -> eq_resolvent E alt n P N f = Some o ->
  exists R, o = Some R /\ good_resolvent f P N R /\ forall M, model_ok SS (dist E) M -> clause_true SS M R -> covers M f P N.
Proof.
  intros GP GN ON HB H. unfold eq_resolvent in H.
  destruct (find_lit f (Some true) (disjoint E alt P)) as [j|] eqn:FP; [|discriminate]. destruct (find_lit f (Some false) (map (lit_copy E) N)) as [k|] eqn:FN; [|discriminate].
  destruct (nth_error (disjoint E alt P) j) as [p|] eqn:NP; [|discriminate]. destruct (nth_error (map (lit_copy E) N) k) as [q|] eqn:NN; [|discriminate].
  destruct (setup P N f j k p q GP GN HB FP FN NP NN) as (L & K & la & lb & FD). pose proof FD as FD'. destruct FD'. destruct fd_wp0 as [W1 P1], fd_wq0 as [W2 P2].
  assert (PL : forall u v, unique_distinct_vars (lt p) = u -> unique_distinct_vars (lt q) = v -> u <> None \/ v <> None -> plain la \/ plain lb).
  { intros u v Hu Hv [X|X].
    - destruct u as [xs|]; [|congruence]. left. apply udv_plain in Hu. destruct Hu as (g & HL & D). rewrite fd_p0 in HL. injection HL as _ HL. eapply plain_alt; eauto.
    - destruct v as [xs|]; [|congruence]. right. apply udv_plain in Hv. destruct Hv as (g & HL & D). rewrite fd_q0 in HL. injection HL as _ HL. exists xs. auto. }
  assert (G : plain la \/ plain lb -> match mgu n SS (pp E) start (lt p) (lt q) with
     | Success st | Failure st => option_map Some (join_rests E n (bnd st) (disjoint E alt P) (map (lit_copy E) N) j k) | _ => None end = Some o ->
     exists R, o = Some R /\ good_resolvent f P N R /\ forall M, model_ok SS (dist E) M -> clause_true SS M R -> covers M f P N).
  { intros PL' HH. destruct (pair_unifiable P N f j k p q L K la lb ON FD PL') as (tau & T1 & T2). pose proof (mgu_no_fail n tau (lt p) (lt q) T1 W1 W2 T2) as NF.
    destruct (mgu n SS (pp E) start (lt p) (lt q)) as [st|st| |] eqn:U; try discriminate; [|contradiction].
    destruct (join_rests E n (bnd st) (disjoint E alt P) (map (lit_copy E) N) j k) as [R|] eqn:JR; [|discriminate]. injection HH as <-. exists R. split; auto.
    destruct (mgu_state n (lt p) (lt q) st W1 W2 P1 P2 U) as (s & S1 & S2 & S3 & S4 & S5).
    destruct (join_from n (bnd st) s P N f j k R S3 S2 S1 S4 GP GN fd_j0 fd_k0 JR) as (GR & FR & AT). split.
    - split; auto. split; auto. intros M HM TP TN. apply (join_sound n P N f j k p q L K la lb GP GN FD M (bnd st) s R); auto.
    - intros M HM TR. apply (covers_plain n P N f j k p q L K la lb GP GN ON FD M n (lt p) (lt q) st R); auto. }
  destruct (unique_distinct_vars (lt p)) as [xs|] eqn:U1; [apply G; auto; apply (PL _ _ eq_refl eq_refl); left; discriminate|].
  destruct (unique_distinct_vars (lt q)) as [xs|] eqn:U2; [apply G; auto; apply (PL _ _ eq_refl eq_refl); right; discriminate|].
  injection H as <-. exists (flat P N j k p q). split; [reflexivity|]. split.
  - split; [apply (flat_gc P N f j k p q L K la lb GP GN FD)|]. split; [|intros M HM TP TN; apply (flat_sound P N f j k p q L K la lb GP GN FD M HM TP TN)].
    intros j' k' FJ' FK' g e I A. assert (j' = j) by congruence. assert (k' = k) by congruence. subst j' k'. unfold flat in I. apply finish_in in I. rewrite !in_app_iff in I.
    destruct I as [I|[I|I]].
    + apply in_rev in I. destruct (flat_lits P N f j k p q L K la lb FD) as (_ & _ & FE). unfold atom_of in A. rewrite (FE e I) in A. discriminate.
    + destruct (img_provenance _ _ _ g e (ren_alt_wf E alt base HA) (gc_rest j P GP) (rest_img _ j _ _ (img_disjoint P GP)) I A) as [e' [I' A']]. rewrite rest_in in I'. eauto.
    + destruct (img_provenance Var _ _ g e ltac:(intros x; split; reflexivity) (gc_rest k N GN) (rest_img _ k _ _ (img_copy N GN)) I A) as [e' [I' A']]. rewrite rest_in in I'. eauto.
  - intros M HM TR. apply (covers_flat P N f j k p q L K la lb GP GN ON FD M HM TR).
Qed.

(** ** Normalisation *)

Lemma has_spec i l : has i l = true <-> In i l.
Proof. unfold has. rewrite existsb_exists. split; [intros [y [I Q]]; apply Nat.eqb_eq in Q; subst; auto|intros I; exists i; split; auto; apply Nat.eqb_refl]. Qed.
Definition norm_subst (c : clause) : subst := assign E (clause_vars c) [] reset.
Lemma assign_spec : forall xs seen cnt, 
  (forall z, In z xs -> ~ In z seen -> exists k, cnt (vsort SS z) <= k /\ assign E xs seen cnt z = Var (prim (fresh E (vsort SS z) k)))
  /\ (forall z, ~ In z xs \/ In z seen -> assign E xs seen cnt z = Var z)
  /\ (forall z z', In z xs -> ~ In z seen -> In z' xs -> ~ In z' seen -> assign E xs seen cnt z = assign E xs seen cnt z' -> z = z').
Proof.
  induction xs as [|x xs IH]; intros seen cnt; cbn [assign].
  { split; [intros z []|]. split; [reflexivity|intros z z' []]. }
  destruct (has x seen) eqn:HS.
  - apply has_spec in HS. destruct (IH seen cnt) as (A & B & C). split; [|split].
    + intros z [->|I] N; [contradiction|auto].
    + intros z [I|I]; apply B; auto. left. intros X. apply I. right. auto.
    + intros z z' [->|I] N [->|I'] N'; try contradiction; auto.
  - assert (NS : ~ In x seen) by (intros X; apply has_spec in X; congruence). destruct (IH (x :: seen) (bump cnt (vsort SS x))) as (A & B & C).
    assert (BM : forall s, cnt s <= bump cnt (vsort SS x) s) by (intros s; unfold bump; destruct (Nat.eqb (vsort SS x) s); lia).
    assert (BX : bump cnt (vsort SS x) (vsort SS x) = S (cnt (vsort SS x))) by (unfold bump; rewrite Nat.eqb_refl; auto).
    assert (D : forall z, In z xs -> ~ In z seen -> z <> x -> assign E xs (x :: seen) (bump cnt (vsort SS x)) z <> Var (prim (fresh E (vsort SS x) (cnt (vsort SS x))))).
    { intros z I N NX. destruct (A z I) as (k & K1 & ->); [intros [X|X]; [congruence|contradiction]|]. intros Q. injection Q as Q. apply prim_fresh_inj in Q; try apply (eo_fresh_cell E HE).
      pose proof (f_equal (vsort SS) Q) as V. rewrite !(eo_fresh_sort E HE) in V. rewrite V in *. apply (eo_fresh_inj E HE) in Q. lia. }
    split; [|split].
    + intros z I N. destruct (Nat.eqb_spec z x) as [->|NX]; [exists (cnt (vsort SS x)); split; auto|]. destruct I as [->|I]; [congruence|].
      destruct (A z I) as (k & K1 & K2); [intros [X|X]; [congruence|contradiction]|]. exists k. split; auto. specialize (BM (vsort SS z)). lia.
    + intros z I. destruct (Nat.eqb_spec z x) as [->|NX]; [destruct I as [I|I]; [destruct I; left; auto|contradiction]|]. apply B. destruct I as [I|I]; [left; intros X; apply I; right; auto|right; right; auto].
    + intros z z' I N I' N'. destruct (Nat.eqb_spec z x) as [->|NX], (Nat.eqb_spec z' x) as [->|NX']; auto.
      * intros Q. destruct I' as [->|I']; [congruence|]. destruct (D z' I' N' NX'); auto.
      * intros Q. destruct I as [->|I]; [congruence|]. destruct (D z I N NX); auto.
      * destruct I as [->|I]; [congruence|]. destruct I' as [->|I']; [congruence|]. apply C; auto; intros [X|X]; congruence.
Qed.
Lemma norm_wfsubst c : wfsubst SS (norm_subst c).
Proof.
  intros z. destruct (assign_spec (clause_vars c) [] reset) as (A & B & _). unfold norm_subst. destruct (in_dec Nat.eq_dec z (clause_vars c)) as [I|I].
  - destruct (A z I ltac:(auto)) as (k & _ & ->). split; [cbn; rewrite (eo_prim E HE); apply (eo_fresh_sort E HE)|reflexivity].
  - rewrite B by auto. split; reflexivity.
Qed.
Lemma clause_vars_in c e x : In e c -> In x (vars (lt e) ++ vars (rt e)) -> In x (clause_vars c).
Proof. intros. unfold clause_vars. apply in_flat_map. eauto. Qed.
Lemma norm_img c : gc c -> Forall2 (img (norm_subst c)) c (normalize E c).
Proof.
  intros G. unfold normalize. fold (norm_subst c). pose proof (norm_wfsubst c) as Ws. generalize dependent (norm_subst c). intros s Ws.
  assert (H : forall e, In e c -> img s e (norm_lit E s e)).
  { intros e He. destruct (gc_in c e G He) as [OK FO]. destruct (alloc_fo E HE s e (fun x => proj1 (Ws x)) FO OK) as (A & B & C). split; auto. }
  clear G. induction c as [|e c IH]; cbn; constructor; [apply H; left; auto|apply IH; intros; apply H; right; auto].
Qed.
Lemma norm_vars c x : In x (clause_vars c) -> exists k, norm_subst c x = Var (prim (fresh E (vsort SS x) k)).
Proof. intros I. destruct (assign_spec (clause_vars c) [] reset) as (A & _). destruct (A x I ltac:(auto)) as (k & _ & H). eauto. Qed.
Lemma norm_term_vars c e y : In e c -> In y (vars (Terms.app (norm_subst c) (lt e)) ++ vars (Terms.app (norm_subst c) (rt e))) -> exists s k, y = prim (fresh E s k).
Proof.
  intros I Hy. assert (X : exists x, In x (vars (lt e) ++ vars (rt e)) /\ In y (vars (norm_subst c x))).
  { apply in_app_iff in Hy. destruct Hy as [Hy|Hy]; apply vars_app in Hy; destruct Hy as [x [Hx Hy]]; exists x; split; auto; apply in_app_iff; auto. }
  destruct X as (x & Hx & Hy'). destruct (norm_vars c x (clause_vars_in c e x I Hx)) as [k Hk]. rewrite Hk in Hy'. destruct Hy' as [<-|[]]. eauto.
Qed.
Lemma norm_gc c : gc c -> gc (normalize E c).
Proof.
  intros G. apply gc_intro. intros e' I. destruct (Forall2_in_r _ _ _ _ (norm_img c G) I) as [e [Ie He]]. destruct (gc_in c e G Ie) as [OK FO].
  destruct (img_ok (norm_subst c) e e' (norm_wfsubst c) He) as (A & B & _); auto; destruct He as (L & R & _); rewrite ?L, ?R; intros y Hy;
    (destruct (norm_term_vars c e y Ie) as (s & k & ->); [apply in_app_iff; auto|apply prim_even]).
Qed.
Lemma norm_over c : (forall s k, base (prim (fresh E s k))) -> gc c -> over base (normalize E c).
Proof.
  intros HBa G e' y I Hy. destruct (Forall2_in_r _ _ _ _ (norm_img c G) I) as [e [Ie (L & R & _)]]. rewrite L, R in Hy.
  destruct (norm_term_vars c e y Ie Hy) as (s & k & ->). auto.
Qed.
Lemma norm_true M c : model_ok SS (dist E) M -> gc c -> (clause_true SS M (normalize E c) <-> clause_true SS M c).
Proof.
  intros HM G. pose proof (norm_img c G) as I. split; intros H v Hv.
  - destruct (assign_spec (clause_vars c) [] reset) as (_ & _ & INJ). fold (norm_subst c) in INJ.
    assert (X : forall y, exists d, isort M (vsort SS y) d /\ forall x, In x (clause_vars c) -> norm_subst c x = Var y -> d = v x).
    { intros y. destruct (classic (exists x, In x (clause_vars c) /\ norm_subst c x = Var y)) as [[x [Hx Q]]|N].
      - exists (v x). split; [|intros x' Hx' Q'; f_equal; apply INJ; auto; congruence]. pose proof (norm_wfsubst c x) as [S1 _]. rewrite Q in S1. cbn in S1. rewrite S1. apply Hv.
      - exists (v y). split; [apply Hv|]. intros x Hx Q. destruct N. eauto. }
    set (w := fun y => proj1_sig (constructive_indefinite_description _ (X y))).
    assert (HW : forall y, isort M (vsort SS y) (w y) /\ forall x, In x (clause_vars c) -> norm_subst c x = Var y -> w y = v x) by (intros y; exact (proj2_sig (constructive_indefinite_description _ (X y)))).
    specialize (H w (fun y => proj1 (HW y))). apply (img_exists M w _ _ _ I) in H. eapply exists_ext; [|exact H]. intros e x Ie Hx. cbn.
    pose proof (clause_vars_in c e x Ie Hx) as IV. destruct (norm_vars c x IV) as [k Hk]. rewrite Hk. cbn. symmetry. apply (proj2 (HW _)); auto.
  - apply (img_exists M v _ _ _ I). apply H. apply (respects_subst SS (dist E)); auto. apply norm_wfsubst.
Qed.
Lemma norm_renaming c : renaming (norm_subst c).
Proof.
  intros z. destruct (assign_spec (clause_vars c) [] reset) as (A & B & _). unfold norm_subst. destruct (in_dec Nat.eq_dec z (clause_vars c)) as [I|I].
  - destruct (A z I ltac:(auto)) as (k & _ & ->). eauto.
  - rewrite B by auto. eauto.
Qed.
Lemma norm_atoms c g e' : gc c -> In e' (normalize E c) -> atom_of g e' = true -> exists e, In e c /\ atom_of g e = true.
Proof. intros G I A. eapply (img_provenance (norm_subst c)); eauto; [apply norm_wfsubst|apply norm_img; auto]. Qed.
Lemma norm_atoms_only c : gc c -> atoms_only c -> atoms_only (normalize E c).
Proof.
  intros G A e' I. destruct (Forall2_in_r _ _ _ _ (norm_img c G) I) as [e [Ie (_ & B & _)]]. specialize (A e Ie). unfold equlit in *. apply negb_false_iff, term_eqb_eq in A.
  rewrite B, A. reflexivity.
Qed.
End Res.
