(** * Each step of the clausal preprocessing keeps what the next one needs. *)
From Coq Require Import Permutation.
From Verif Require Import Terms Unify UnifyProofs KBO Semantics Clauses ClausesProofs InferProofs Subsume Taut Split SplitSemProofs Infer CNF Unfold UnfoldProofs Inj InjProofs Bce PredElim GoalDefs SaturateSyms PipeSyms Pipeline.
Local Open Scope nat_scope.

Section Steps.
Variables (E : env) (base : var -> Prop).
Hypothesis HE : env_ok E.

(** ** Sublists *)
Definition sub (c d : clause) : Prop := forall e, In e c -> In e d.
Lemma sub_forall (P : eqn -> Prop) c d : sub c d -> Forall P d -> Forall P c.
Proof. rewrite !Forall_forall. auto. Qed.
Lemma sub_over c d : sub c d -> over base d -> over base c.
Proof. intros H O e x He. apply O. auto. Qed.
Lemma superfluous_sub c : sub (remove_superfluous E c) c.
Proof. intros e. apply remove_superfluous_in. Qed.
Lemma taut_sub eno mn k : forall l r, filter_taut eno mn k E l = Some r -> incl r l /\ forall c, In c r -> find_true E c = false.
Proof.
  intros l r H. split; [eapply filter_taut_sub; eauto|]. revert r H. induction l as [|c l IH]; intros r H; cbn in H; [injection H as <-; intros d []|].
  destruct (clause_is_tautology _ _ _ _ c) as [b| |] eqn:T; try discriminate. destruct (filter_taut _ _ _ _ l) as [r0|]; [|discriminate]. injection H as <-.
  destruct b; [apply IH; auto|]. intros d [<-|Hd]; [|apply (IH _ eq_refl); auto]. unfold clause_is_tautology in T. destruct (find_true E c); [discriminate|auto].
Qed.
Lemma forall_incl {A} (P : A -> Prop) l r : incl r l -> Forall P l -> Forall P r.
Proof. rewrite !Forall_forall. auto. Qed.

(** ** $true disappears *)
Lemma resolved_not_false c e : In e (remove_superfluous E c) -> eqn_is_false E e = false.
Proof. unfold remove_superfluous, remove_resolved. intros H. apply remove_dups_incl, filter_In in H. apply negb_true_iff. tauto. Qed.
Lemma strong c : Forall (weak_lit E) c -> (forall e, In e c -> eqn_is_false E e = false) -> find_true E c = false -> fo_clause E c.
Proof.
  intros W NF NT. unfold fo_clause. rewrite Forall_forall in *. intros e He. destruct (W e He) as [|[L R]]; auto. exfalso.
  specialize (NF e He). assert (NT' : eqn_is_true E e = false) by (destruct (eqn_is_true E e) eqn:T; auto; rewrite <- NT; symmetry; apply existsb_exists; eauto).
  unfold eqn_is_false, eqn_is_true in *. assert (T : eqn_trivial e = true) by (unfold eqn_trivial; rewrite L, R; apply term_eqb_refl). rewrite T in *. destruct (pos e); discriminate.
Qed.

(** ** Canonization *)
Lemma canon_cases e : eqn_canonize (srt E) e = e \/ is_true (lt e) = is_true (rt e) /\ eqn_canonize (srt E) e = mkeqn (rt e) (lt e) (pos e) false false (maxi e) (smaxi e) (sel e) (pseudo e).
Proof.
  unfold eqn_canonize. destruct (Z.eqb _ 0 && _) eqn:C; auto. right. split; auto. apply andb_true_iff in C. destruct C as [C _]. apply Z.eqb_eq in C.
  destruct (lt e) as [x|f a], (rt e) as [y|g b]; cbn [struct_compare is_true] in *; auto.
  - destruct (Nat.eqb g true_code); [discriminate|auto].
  - destruct (Nat.eqb f true_code); [discriminate|auto].
  - destruct (Nat.eqb f true_code), (Nat.eqb g true_code); auto; discriminate.
Qed.
Lemma canon_ok e : eqn_ok E e -> eqn_ok E (eqn_canonize (srt E) e).
Proof. intros H. destruct (canon_cases e) as [->|[_ ->]]; auto. destruct H as (A & B & C & D & F). split; auto. Qed.
Lemma canon_lok n e : lok n e -> lok n (eqn_canonize (srt E) e).
Proof. intros H. destruct (canon_cases e) as [->|[_ ->]]; auto. destruct H. split; auto. Qed.
Lemma canon_holds M v e : holds M v (eqn_canonize (srt E) e) <-> holds M v e.
Proof.
  destruct (canon_cases e) as [->|[_ ->]]; [tauto|]. unfold holds, lit_holds. cbn. destruct (pos e); split; intros H; try congruence; intros X; apply H; auto.
Qed.
Lemma canon_fo e : eqn_ok E e -> fo_lit E e -> fo_lit E (eqn_canonize (srt E) e).
Proof.
  intros (W1 & W2 & TS & _) H. destruct (canon_cases e) as [->|[T ->]]; auto. unfold fo_lit in *. unfold equlit in *. cbn [lt rt].
  destruct (term_eqb (rt e) ttrue) eqn:R; cbn [negb] in *.
  - apply term_eqb_eq in R. rewrite R in T. cbn in T. destruct H as (p & l & L & P & _). rewrite L in T. cbn in T. apply Nat.eqb_eq in T. congruence.
  - destruct (term_eqb (lt e) ttrue) eqn:L; cbn [negb]; [|congruence]. apply term_eqb_eq in L. rewrite L in H. exfalso. apply H. reflexivity.
Qed.
Variables (sortl : clause -> clause) (sortc : list clause -> list clause).
Hypotheses (HL : forall c, Permutation (sortl c) c) (HC : forall l, Permutation (sortc l) l).
Definition canon1 (c : clause) : clause := sortl (map (eqn_canonize (srt E)) (remove_superfluous E c)).
Lemma canonize_in c N : In c (canonize E sortl sortc N) <-> exists d, In d N /\ c = canon1 d.
Proof.
  unfold canonize. split.
  - intros H. apply (Permutation_in _ (HC _)), in_map_iff in H. destruct H as [d [<- H]]. exists d. auto.
  - intros [d [H ->]]. apply (Permutation_in _ (Permutation_sym (HC _))), in_map_iff. exists d. auto.
Qed.
Lemma canon1_in e c : In e (canon1 c) <-> exists d, In d (remove_superfluous E c) /\ e = eqn_canonize (srt E) d.
Proof.
  unfold canon1. split.
  - intros H. apply (Permutation_in _ (HL _)), in_map_iff in H. destruct H as [d [<- H]]. exists d. auto.
  - intros [d [H ->]]. apply (Permutation_in _ (Permutation_sym (HL _))), in_map_iff. exists d. auto.
Qed.
Lemma canon_all (P Q : eqn -> Prop) N : (forall e, P e -> Q (eqn_canonize (srt E) e)) -> Forall (Forall P) N -> Forall (Forall Q) (canonize E sortl sortc N).
Proof.
  intros H HN. rewrite Forall_forall in *. intros c Hc. apply canonize_in in Hc. destruct Hc as [d [Hd ->]]. apply Forall_forall. intros e He.
  apply canon1_in in He. destruct He as [e' [He ->]]. apply H. apply superfluous_sub in He. specialize (HN d Hd). rewrite Forall_forall in HN. auto.
Qed.
Lemma canonize_ok N : Forall (clause_ok E) N -> Forall (clause_ok E) (canonize E sortl sortc N).
Proof. intros H. apply (canon_all (eqn_ok E) (eqn_ok E)); auto. apply canon_ok. Qed.
Lemma canonize_lok n N : Forall (Forall (lok n)) N -> Forall (Forall (lok n)) (canonize E sortl sortc N).
Proof. apply canon_all. apply canon_lok. Qed.
Lemma canonize_fo N : Forall (clause_ok E) N -> Forall (fo_clause E) N -> Forall (fo_clause E) (canonize E sortl sortc N).
Proof.
  intros A B. apply (canon_all (fun e => eqn_ok E e /\ fo_lit E e) (fo_lit E)); [intros e [X Y]; apply canon_fo; auto|].
  rewrite Forall_forall in *. intros c Hc. specialize (A c Hc). specialize (B c Hc). unfold clause_ok, fo_clause in *. rewrite Forall_forall in *. auto.
Qed.
Lemma canonize_over N : Forall (over base) N -> Forall (over base) (canonize E sortl sortc N).
Proof.
  rewrite !Forall_forall. intros H c Hc. apply canonize_in in Hc. destruct Hc as [d [Hd ->]]. intros e x He Hx. apply canon1_in in He. destruct He as [e' [He ->]].
  apply superfluous_sub in He. apply (H d Hd e' x He). destruct (canon_cases e') as [Q|[_ Q]]; rewrite Q in Hx; auto. cbn [lt rt] in Hx. apply in_app_iff in Hx. apply in_app_iff. tauto.
Qed.
Lemma canon1_true M c : model_ok (srt E) (dist E) M -> (clause_true (srt E) M (canon1 c) <-> clause_true (srt E) M c).
Proof.
  intros HM. rewrite <- (superfluous_true E M c HM). unfold clause_true.
  assert (X : forall v, Exists (holds M v) (canon1 c) <-> Exists (holds M v) (remove_superfluous E c)).
  { intros v. rewrite !Exists_exists. split.
    - intros [e [He H]]. apply canon1_in in He. destruct He as [d [Hd ->]]. exists d. split; auto. apply (proj1 (canon_holds M v d)), H.
    - intros [e [He H]]. exists (eqn_canonize (srt E) e). split; [apply canon1_in; eauto|apply canon_holds; auto]. }
  split; intros H v Hv; apply X; auto.
Qed.
Lemma canonize_true M N : model_ok (srt E) (dist E) M -> (satisfied E M (canonize E sortl sortc N) <-> satisfied E M N).
Proof.
  intros HM. split; intros H c Hc.
  - apply (canon1_true M c HM). apply H. apply canonize_in. eauto.
  - apply canonize_in in Hc. destruct Hc as [d [Hd ->]]. apply (canon1_true M d HM). auto.
Qed.

(** ** Unfolding *)
(** the right-hand side is an individual or $true *)
Definition dgood (d : defn) : Prop := def_ok E d /\ (drhs d = ttrue \/ fres (srt E) (dsym d) <> fres (srt E) true_code) /\ dsym d <> true_code /\ incl (vars (drhs d)) (dvars d).
Definition wclause (c : clause) : Prop := Forall (fun e => fo_lit E e \/ pos e = true /\ lt e = ttrue /\ rt e = ttrue) c.
Lemma fo_w c : fo_clause E c -> wclause c.
Proof. intros H. eapply Forall_impl; [|exact H]. auto. Qed.

Lemma def_good c d : clause_ok E c -> wclause c -> clause_def E 1 c = Some d -> dgood d.
Proof.
  intros OK W H. destruct (clause_def_some E 1 c d ltac:(lia) H) as (e & -> & DO & DS). inversion OK as [|? ? OKe _]; subst. inversion W as [|? ? We _]; subst.
  pose proof (def_of_ok E d e OKe DO DS) as DK. split; auto. destruct DS as (X1 & X2 & X3 & X4). destruct DO as [P DO]. destruct OKe as (W1 & W2 & TS & _).
  assert (TR : dsym d <> true_code).
  { intros Q. destruct DK as (_ & WF & _). apply wf_fun in WF. destruct WF as [_ WF]. rewrite Q, (eo_true E HE) in WF. destruct (dvars d); [congruence|discriminate]. }
  split; [|split; auto].
  destruct DO as [[L R]|[L R]].
  - destruct We as [We|(_ & L' & _)]; [|rewrite L in L'; unfold ttrue in L'; congruence]. unfold fo_lit, equlit in We. destruct (term_eqb (rt e) ttrue) eqn:RT; cbn [negb] in We.
    + apply term_eqb_eq in RT. left. congruence.
    + right. rewrite L in We. exact We.
  - destruct We as [We|(_ & _ & R')]; [|rewrite L in R'; unfold ttrue in R'; congruence]. unfold fo_lit, equlit in We. destruct (term_eqb (rt e) ttrue) eqn:RT; cbn [negb] in We.
    + apply term_eqb_eq in RT. rewrite L in RT. unfold ttrue in RT. congruence.
    + right. rewrite TS, L in We. exact We.
Qed.

Lemma unfold_lit_w d e : dgood d -> eqn_ok E e -> fo_lit E e \/ pos e = true /\ lt e = ttrue /\ rt e = ttrue -> eqn_is_false E (eqn_unfold d e) = false ->
  fo_lit E (eqn_unfold d e) \/ pos (eqn_unfold d e) = true /\ lt (eqn_unfold d e) = ttrue /\ rt (eqn_unfold d e) = ttrue.
Proof.
  intros (DK & DR & DT & DV) OK W NF. assert (UT : term_unfold d ttrue = ttrue) by (unfold ttrue; cbn [term_unfold map]; destruct (Nat.eqb_spec true_code (dsym d)); [congruence|reflexivity]).
  destruct W as [W|(P & L & R)]; [|right; cbn; rewrite L, R, UT; auto]. pose proof OK as (W1 & W2 & TS & _).
  destruct (unfold_wf E d DK (lt e) W1) as [_ S1]. destruct (unfold_wf E d DK (rt e) W2) as [_ S2].
  unfold fo_lit, equlit in W. destruct (term_eqb (rt e) ttrue) eqn:RT; cbn [negb] in W.
  - apply term_eqb_eq in RT. destruct W as (p & l & L & P1 & P2). unfold fo_lit, equlit. cbn [eqn_unfold lt rt pos] in *. rewrite RT, UT, term_eqb_refl. cbn [negb]. rewrite L in *. cbn [term_unfold] in *.
    destruct (Nat.eqb_spec p (dsym d)) as [->|NE]; [|left; eauto]. destruct DR as [DR|DR]; [|exfalso; apply DR; rewrite RT in TS; exact TS].
    rewrite DR in *. cbn [app map ttrue] in *. destruct (pos e) eqn:P; [right; auto|]. exfalso. unfold eqn_is_false, eqn_trivial in NF. cbn [eqn_unfold lt rt pos] in NF.
    rewrite P, RT, UT, L in NF. cbn [term_unfold] in NF. rewrite Nat.eqb_refl, DR in NF. cbn [app map ttrue] in NF. rewrite term_eqb_refl in NF. discriminate.
  - left. unfold fo_lit, equlit. cbn [eqn_unfold lt rt]. destruct (term_eqb (term_unfold d (rt e)) ttrue) eqn:RT'; cbn [negb].
    + apply term_eqb_eq in RT'. exfalso. apply W. rewrite TS, <- S2, RT'. reflexivity.
    + rewrite S1. exact W.
Qed.
Definition uok (c : clause) : Prop := clause_ok E c /\ wclause c /\ over base c.
Lemma clause_unfold_uok d c : dgood d -> uok c -> uok (clause_unfold E d c).
Proof.
  intros DG (OK & W & OV). pose proof DG as (DK & _). split; [apply clause_unfold_ok; auto|]. unfold clause_unfold. destruct (unfolds d c); [|auto]. split.
  - unfold wclause. apply Forall_forall. intros e' He. pose proof (resolved_not_false _ _ He) as NF. apply superfluous_sub, in_map_iff in He. destruct He as [e [<- He]].
    apply unfold_lit_w; auto; [unfold clause_ok in OK; rewrite Forall_forall in OK; auto|]. unfold wclause in W. rewrite Forall_forall in W. apply (W e He).
  - intros e' x He Hx. apply superfluous_sub, in_map_iff in He. destruct He as [e [<- He]]. apply (OV e x He). unfold clause_ok in OK. rewrite Forall_forall in OK.
    destruct (OK e He) as (W1 & W2 & _). cbn [eqn_unfold lt rt] in Hx. apply in_app_iff in Hx. apply in_app_iff. destruct Hx as [Hx|Hx]; [left|right]; eapply unfold_vars; eauto.
Qed.
Lemma set_unfold_uok d l : dgood d -> Forall uok l -> Forall uok (set_unfold E d l).
Proof. intros DG H. unfold set_unfold. rewrite Forall_map. eapply Forall_impl; [|exact H]. intros c. apply clause_unfold_uok. auto. Qed.
Lemma unfold_loop_uok limit : forall fuel b r p a b' p' a', Forall uok b -> Forall uok r -> unfold_loop E 1 limit fuel b r p a = Some (b', p', a') -> Forall uok b'.
Proof.
  induction fuel as [|k IH]; intros b r p a b' p' a' HB HR H; cbn [unfold_loop] in H; [discriminate|].
  destruct (find_def E 1 r) as [[[[pre c] d] post]|] eqn:F; [|injection H as <- _ _; apply Forall_app; auto].
  destruct (find_def_in _ _ _ _ _ _ _ F) as [-> D]. apply Forall_app in HR. destruct HR as [H1 H2]. inversion H2 as [|? ? HCl HP]; subst. destruct HCl as (OKc & Wc & OVc).
  pose proof (def_good c d OKc Wc D) as DG. destruct (small_enough limit d); eapply IH; [| |exact H| | |exact H].
  - apply set_unfold_uok; auto. apply Forall_app; auto.
  - apply set_unfold_uok; auto.
  - apply Forall_app. split; auto. apply Forall_app. split; auto. constructor; auto. split; auto.
  - auto.
Qed.
Lemma unfold_loop_archive_nil limit : forall fuel b r p a b' p', unfold_loop E 1 limit fuel b r p a = Some (b', p', []) -> a = [] /\ b' = b ++ r.
Proof.
  induction fuel as [|k IH]; intros b r p a b' p' H; cbn [unfold_loop] in H; [discriminate|].
  destruct (find_def E 1 r) as [[[[pre c] d] post]|] eqn:F; [|injection H as <- _ ->; auto]. destruct (find_def_in _ _ _ _ _ _ _ F) as [-> _].
  destruct (small_enough limit d); destruct (IH _ _ _ _ _ _ H) as [A B]; [destruct a; discriminate|]. split; auto. rewrite B, <- !app_assoc. reflexivity.
Qed.
Lemma w_fo c : wclause c -> find_true E c = false -> fo_clause E c.
Proof.
  intros W NT. unfold wclause, fo_clause in *. rewrite Forall_forall in *. intros e He. destruct (W e He) as [|(P & L & R)]; auto. exfalso.
  assert (T : eqn_is_true E e = true) by (unfold eqn_is_true, eqn_trivial; rewrite P, L, R; apply term_eqb_refl).
  assert (X : find_true E c = true) by (apply existsb_exists; eauto). congruence.
Qed.
Lemma unfold_normalize_fo eno mn k off limit mx N N' P' A : Forall (clause_ok E) N -> Forall (fo_clause E) N -> Forall (over base) N ->
  unfold_normalize eno mn k E off limit mx N [] = Some (N', P', A) -> Forall (fo_clause E) N' /\ Forall (over base) N'.
Proof.
  intros OK FO OV H. unfold unfold_normalize in H. destruct (off || _); [injection H as <- _ _; auto|].
  destruct (unfold_all E 1 limit N []) as [[[s ps] ar]|] eqn:U; [|discriminate]. unfold unfold_all in U. destruct ar as [|c0 ar].
  - injection H as <- _ _. destruct (unfold_loop_archive_nil _ _ _ _ _ _ _ _ U) as [_ ->]. auto.
  - assert (HU : Forall uok s).
    { eapply unfold_loop_uok; [| |exact U]; [constructor|]. rewrite Forall_forall in *. intros c Hc. split; auto. split; auto. apply fo_w; auto. }
    destruct (filter_taut eno mn k E s) as [r|] eqn:F; [|discriminate]. injection H as <- _ _. destruct (taut_sub _ _ _ _ _ F) as [I NT]. rewrite Forall_forall in HU.
    split; apply Forall_forall; intros c Hc; destruct (HU c (I c Hc)) as (_ & W & O); auto. apply w_fo; auto.
Qed.

(** ** Injectivity axioms *)
Hypothesis HF : fo_sig E.
Lemma inj_index_lt x y : forall ls rs i, inj_index x y ls rs = Some i -> i < length ls.
Proof.
  induction ls as [|a ls IH]; intros [|b rs] i H; cbn in H; try discriminate. destruct (_ || _); [injection H as <-; cbn; lia|].
  destruct (inj_index x y ls rs) as [j|] eqn:J; [|discriminate]. injection H as <-. specialize (IH _ _ J). cbn. lia.
Qed.
Lemma inj_scan_in : forall ls rs op chk sv x, inj_scan ls rs op chk = Some sv -> In x sv -> In x ls.
Proof.
  induction ls as [|a ls IH]; intros [|b rs] op chk sv x H Hx; cbn in H; try (injection H as <-; destruct Hx; fail).
  destruct (Nat.eqb a b).
  - destruct (mem a chk); [discriminate|]. destruct (mem a op); [right; eapply IH; eauto|]. destruct (inj_scan ls rs (a :: op) chk) as [s|] eqn:J; [|discriminate].
    injection H as <-. destruct Hx as [<-|Hx]; [left; auto|right; eapply IH; eauto].
  - destruct (_ || _); [discriminate|]. right; eapply IH; eauto.
Qed.
Lemma inj_clause_fo internal isinj n p q r d : (forall x, In x (vars (lt q)) -> base x) -> inj_clause E internal isinj n p q = Some (r, d) -> decl_in E d -> fo_clause E r /\ over base r.
Proof.
  intros HB H DC. unfold inj_clause in H. destruct (_ && _); [|discriminate]. destruct (lt p) as [x|]; [|discriminate]. destruct (rt p) as [y|]; [|discriminate].
  destruct (lt q) as [|f ls]; [discriminate|]. destruct (rt q) as [|g rs]; [discriminate|]. destruct (_ && _); [|discriminate].
  destruct (var_args ls) as [lv|] eqn:VA; [|discriminate]. destruct (var_args rs) as [rv|]; [|discriminate]. destruct (inj_index _ _ _ _) as [i|] eqn:II; [|discriminate]. destruct (inj_scan _ _ _ _) as [sv|] eqn:IS; [|discriminate].
  apply var_args_some in VA. subst ls. injection H as <- <-. destruct DC as [_ DC]. cbn in DC. rewrite vars_map_var in HB. apply inj_index_lt in II.
  set (l := Fun n (map Var sv ++ [Fun f (map Var lv)])). set (z := nth i lv 0). assert (Z : base z) by (apply HB, nth_In; auto).
  assert (A : lt (eqn_alloc E l (Var z) true) = l /\ rt (eqn_alloc E l (Var z) true) = Var z).
  { unfold eqn_alloc. assert (T1 : term_eqb l tfalse = false) by (destruct (term_eqb l tfalse) eqn:T; auto; apply term_eqb_eq in T; unfold l, tfalse in T; destruct (map Var sv); discriminate).
    assert (T2 : term_eqb l ttrue = false) by (destruct (term_eqb l ttrue) eqn:T; auto; apply term_eqb_eq in T; unfold l, ttrue in T; destruct (map Var sv); discriminate).
    rewrite T1. cbn [term_eqb tfalse]. cbv beta iota zeta. rewrite ?T2. cbn [lt rt]. auto. }
  destruct A as [A1 A2]. split.
  - constructor; [|constructor]. unfold fo_lit, equlit. rewrite A1, A2. cbn [term_eqb ttrue negb]. unfold l. cbn [tsort]. rewrite DC. apply HF.
  - intros e u [<-|[]]. rewrite A1, A2. unfold l. rewrite in_app_iff. cbn [vars]. rewrite flat_map_app, in_app_iff. cbn [flat_map]. rewrite app_nil_r, vars_map_var.
    intros [[Hu|Hu]|[<-|[]]]; auto. change (flat_map vars (map Var sv)) with (vars (Fun 0 (map Var sv))) in Hu. rewrite vars_map_var in Hu. apply HB. eapply inj_scan_in; eauto.
Qed.
Lemma recognize_fo internal isinj n c r d : over base c -> recognize_injectivity E internal isinj n c = Some (r, d) -> decl_in E d -> fo_clause E r /\ over base r.
Proof.
  intros OV R DC. unfold recognize_injectivity in R. destruct c as [|a [|b [|]]]; try discriminate.
  destruct (_ && _); [|destruct (_ && _); [|discriminate]]; (eapply inj_clause_fo; [|exact R|exact DC]); intros x Hx; [apply (OV b)|apply (OV a)]; try (cbn; tauto); apply in_app_iff; auto.
Qed.
Lemma replace_inj_fo internal known n0 : forall set n tmp r a ds, Forall (fo_clause E) set -> Forall (over base) set -> Forall (fo_clause E) tmp -> Forall (over base) tmp ->
  replace_inj E internal known n0 n set tmp = (r, a, ds) -> Forall (decl_in E) ds -> Forall (fo_clause E) r /\ Forall (over base) r.
Proof.
  induction set as [|c set IH]; intros n tmp r a ds FS OS FT OT H DC; cbn [replace_inj] in H.
  - injection H as <- _ <-. auto.
  - inversion FS as [|? ? F1 F2]; subst. inversion OS as [|? ? O1 O2]; subst. destruct (recognize_injectivity _ _ _ _ _) as [[repl dc]|] eqn:R.
    + destruct (known tmp repl).
      * destruct (replace_inj _ _ _ _ (S n) set tmp) as [[r0 a0] ds0] eqn:RI. injection H as <- _ <-. inversion DC as [|? ? D1 D2]; subst. destruct (IH _ _ _ _ _ F2 O2 FT OT RI D2) as [X Y]. split; constructor; auto.
      * destruct (replace_inj _ _ _ _ (S n) set (tmp ++ [repl])) as [[r0 a0] ds0] eqn:RI. injection H as <- _ <-. inversion DC as [|? ? D1 D2]; subst.
        destruct (recognize_fo _ _ _ _ _ _ O1 R D1) as [G1 G2]. apply (IH (S n) (tmp ++ [repl]) r0 a0 ds0 F2 O2); auto; apply Forall_app; auto.
    + destruct (replace_inj _ _ _ _ n set tmp) as [[r0 a0] ds0] eqn:RI. injection H as <- _ <-. destruct (IH _ _ _ _ _ F2 O2 FT OT RI DC) as [X Y]. split; constructor; auto.
Qed.
End Steps.
