(** * C57: the questions and their answers, lemmas. *)
From Coq Require Import Classical_Prop ClassicalEpsilon.
From Verif Require Import Terms Unify Semantics Clauses ClausesProofs InferProofs Split SplitProofs SplitSemProofs SplitProps Infer CNF CNFProofs CNFTermProofs CNFSkolemProofs CNFMainProofs CNFProps CNFDefs
  CNFDefsProofs CNFDefsProps Rewrite Saturate SaturateStep SaturateProofs SaturateProps Pipeline PipeSteps PipeEnd Answers.
Local Open Scope nat_scope.

(** ** Structures that agree on some symbols *)
Section On.
Variables (D : Type) (so : sort -> D -> Prop) (F F' : sym -> list D -> D) (ok : sym -> Prop).
Hypothesis A : forall f ds, ok f -> F f ds = F' f ds.
Lemma eval_on v t : (forall f, In f (tsyms t) -> ok f) -> eval (mk D so F) v t = eval (mk D so F') v t.
Proof.
  induction t as [x|f a IH] using term_ind'; intros H; [reflexivity|]. cbn [eval]. cbn [mk ifun]. rewrite A by (apply H; left; auto). f_equal. apply map_ext_in. intros u Hu.
  rewrite Forall_forall in IH. apply IH; auto. intros g Hg. apply H. right. apply in_flat_map; eauto.
Qed.
Lemma sem_on S f : ok true_code -> (forall s, In s (form_syms f) -> ok s) -> forall v : var -> D, sem S (mk D so F) v f <-> sem S (mk D so F') v f.
Proof.
  intros T. induction f as [p l r|t|a IH|o a IHa b IHb|q x a IH]; intros B v; cbn [sem form_syms] in *.
  - unfold lit_holds. pose proof (eval_on v l (fun g Hg => B g (in_or_app _ _ _ (or_introl Hg)))) as X. pose proof (eval_on v r (fun g Hg => B g (in_or_app _ _ _ (or_intror Hg)))) as Y.
    change (dom (mk D so F)) with D in *. change (dom (mk D so F')) with D in *. rewrite X, Y. tauto.
  - pose proof (eval_on v t B) as X. change (dom (mk D so F)) with D in *. change (dom (mk D so F')) with D in *. rewrite X. cbn [ifun mk]. rewrite (A true_code []) by auto. tauto.
  - rewrite IH; tauto.
  - apply op_sem_iff; [apply IHa|apply IHb]; intros; apply B, in_or_app; auto.
  - destruct q; split.
    + intros K d Hd. apply IH; auto.
    + intros K d Hd. apply IH; auto.
    + intros [d [Hd K]]. exists d. split; auto. apply IH; auto.
    + intros [d [Hd K]]. exists d. split; auto. apply IH; auto.
Qed.
Lemma true_on S c : (forall e f, In e c -> In f (lit_syms e) -> ok f) -> clause_true S (mk D so F) c -> clause_true S (mk D so F') c.
Proof.
  intros B H v Hv. specialize (H v Hv). apply Exists_exists in H. destruct H as [e [He Q]]. apply Exists_exists. exists e. split; auto. revert Q. unfold holds, lit_holds.
  pose proof (eval_on v (lt e) (fun g Hg => B e g He (in_or_app _ _ _ (or_introl Hg)))) as X. pose proof (eval_on v (rt e) (fun g Hg => B e g He (in_or_app _ _ _ (or_intror Hg)))) as Y.
  change (dom (mk D so F)) with D in *. change (dom (mk D so F')) with D in *. rewrite X, Y. auto.
Qed.
End On.
Lemma sem_on_M M (F' : sym -> list (dom M) -> dom M) (ok : sym -> Prop) S f : (forall f ds, ok f -> ifun M f ds = F' f ds) -> ok true_code -> (forall s, In s (form_syms f) -> ok s) ->
  forall v : var -> dom M, sem S M v f <-> sem S (mk (dom M) (isort M) F') v f.
Proof. destruct M as [D F so]. intros A T H v. exact (sem_on D so F F' ok A S f T H v). Qed.
Lemma true_on_M M (F' : sym -> list (dom M) -> dom M) (ok : sym -> Prop) S c : (forall f ds, ok f -> ifun M f ds = F' f ds) -> (forall e f, In e c -> In f (lit_syms e) -> ok f) ->
  clause_true S M c -> clause_true S (mk (dom M) (isort M) F') c.
Proof. destruct M as [D F so]. intros A H X. exact (true_on D so F F' ok A S c H X). Qed.

(** ** Questions *)
Lemma leading_eq f : f = fold_right (FQ false) (snd (leading f)) (fst (leading f)).
Proof.
  induction f as [p l r|t|a IH|o a IHa b IHb|q x a IH]; try reflexivity. destruct q; [reflexivity|]. cbn [leading]. destruct (leading a) as [xs b]. cbn [fst snd fold_right] in *. congruence.
Qed.
Lemma ex_elim S M g : forall xs v, respects S M v -> sem S M v (fold_right (FQ false) g xs) -> exists w, respects S M w /\ sem S M w g.
Proof. induction xs as [|x xs IH]; intros v Hv H; cbn [fold_right] in H; [eauto|]. cbn [sem] in H. destruct H as [d [Hd H]]. apply IH in H; auto. apply respects_vset; auto. Qed.
Lemma ex_intro' S M g : forall xs w, respects S M w -> sem S M w g -> sem S M w (fold_right (FQ false) g xs).
Proof.
  induction xs as [|x xs IH]; intros w Hw H; cbn [fold_right]; auto. cbn [sem]. exists (w x). split; [apply Hw|]. apply (sem_ext S M _ (vset w x (w x)) w); auto.
  intros y _. unfold vset. destruct (Nat.eqb_spec x y); subst; auto.
Qed.

Section Prep.
Variables (answer : sym) (indiv : sort) (caq : bool).
Definition annotated (k : sym) (xs : list var) (b : form) : form := fold_right (FQ false) (FBin And b (FLit false (Fun answer [Fun k (map Var xs)]) ttrue)) xs.
Fixpoint prep (n : sym) (ws : list wformula) : list form :=
  match ws with
  | [] => []
  | (r, f) :: ws' =>
      if is_question caq r then match leading f with ([], _) => FNot f :: prep n ws' | (xs, b) => FNot (annotated n xs b) :: prep (S n) ws' end
      else (if Z.eqb r r_conjecture then FNot f else f) :: prep n ws'
  end.
Lemma prep_spec : forall ws st ws' st', preproc_conjectures answer indiv true caq st ws = (ws', st') ->
  map snd ws' = prep (c_next st) ws /\ c_vars st' = c_vars st /\ grows (c_env st) (c_next st) (c_env st') (c_next st') /\
  forall k xs b, In (k, xs, b) (questions caq (c_next st) ws) ->
    c_next st <= k < c_next st' /\ fargs (srt (c_env st')) k = map (vsort (srt (c_env st))) xs /\ fres (srt (c_env st')) k = indiv.
Proof.
  induction ws as [|[r f] ws IH]; intros st ws' st' H; cbn [preproc_conjectures] in H.
  - injection H as <- <-. cbn. split; auto. split; auto. split; [apply grows_refl|]. intros k xs b [].
  - cbn [annotate_question prep questions] in *. destruct (is_question caq r) eqn:IQ.
    + unfold annotate in H. destruct (leading f) as [xs b]. destruct xs as [|x xs].
      * destruct (preproc_conjectures answer indiv true caq st ws) as [ws1 st1] eqn:Q. injection H as <- <-. destruct (IH _ _ _ Q) as (A & B & C & D). cbn [map snd conjecture_negate].
        change (Z.eqb r_conjecture r_conjecture) with true. cbv iota. cbn [snd]. rewrite A. auto.
      * unfold new_skolem in H. match type of H with context [preproc_conjectures _ _ _ _ ?s ws] => set (st0 := s) in * end.
        destruct (preproc_conjectures answer indiv true caq st0 ws) as [ws1 st1] eqn:Q. injection H as <- <-. destruct (IH _ _ _ Q) as (A & B & C & D). cbn [map snd conjecture_negate].
        change (Z.eqb r_conjecture r_conjecture) with true. cbv iota. cbn [snd]. rewrite A. cbn [st0 c_next c_vars c_env] in *. pose proof (grows_declare (c_env st) (c_next st) (map (vsort (srt (c_env st))) (x :: xs)) indiv) as G0.
        split; [reflexivity|]. split; [auto|]. split; [eapply grows_trans; eauto|]. pose proof (gr_le _ _ _ _ C) as L.
        intros k ys c [E|I].
        { injection E as <- <- <-. split; [lia|]. rewrite (gr_fargs _ _ _ _ C), (gr_fres _ _ _ _ C) by lia. cbn [declare srt fargs fres]. rewrite Nat.eqb_refl. auto. }
        destruct (D k ys c I) as (D1 & D2 & D3). split; [lia|]. split; auto.
    + destruct (preproc_conjectures answer indiv true caq st ws) as [ws1 st1] eqn:Q. injection H as <- <-. destruct (IH _ _ _ Q) as (A & B & C & D). cbn [map snd conjecture_negate].
      split; [|auto]. f_equal; auto. destruct (Z.eqb r r_conjecture); reflexivity.
Qed.
Lemma in_questions : forall ws n k xs b, In (k, xs, b) (questions caq n ws) -> n <= k /\ xs <> [] /\ exists r f, In (r, f) ws /\ is_question caq r = true /\ leading f = (xs, b).
Proof.
  induction ws as [|[r f] ws IH]; intros n k xs b H; cbn [questions] in H; [destruct H|].
  assert (R : forall m, n <= m -> In (k, xs, b) (questions caq m ws) -> n <= k /\ xs <> [] /\ exists r0 f0, In (r0, f0) ((r, f) :: ws) /\ is_question caq r0 = true /\ leading f0 = (xs, b)).
  { intros m Hm X. destruct (IH m k xs b X) as (A & B & r0 & f0 & C & D). split; [lia|]. split; auto. exists r0, f0. split; auto. right. auto. }
  destruct (is_question caq r) eqn:IQ; [|apply (R n); auto]. destruct (leading f) as [[|y ys] c] eqn:LQ; [apply (R n); auto|]. destruct H as [H|H]; [|apply (R (S n)); auto].
  injection H as <- <- <-. split; [lia|]. split; [discriminate|]. exists r, f. split; [left; auto|]. auto.
Qed.
Lemma questions_inj : forall ws n k xs b xs' b', In (k, xs, b) (questions caq n ws) -> In (k, xs', b') (questions caq n ws) -> xs = xs' /\ b = b'.
Proof.
  induction ws as [|[r f] ws IH]; intros n k xs b xs' b' H H'; cbn [questions] in *; [destruct H|].
  destruct (is_question caq r) eqn:IQ; [|eapply IH; eauto]. destruct (leading f) as [[|y ys] c] eqn:LQ; [eapply IH; eauto|].
  destruct H as [H|H], H' as [H'|H'].
  - injection H as <- <- <-. injection H' as <- <-. auto.
  - injection H as <- <- <-. apply in_questions in H'. lia.
  - injection H' as <- <- <-. apply in_questions in H. lia.
  - eapply IH; eauto.
Qed.
Lemma in_prep : forall ws n g, In g (prep n ws) ->
  (exists f, g = f /\ exists r, In (r, f) ws /\ ~ to_prove caq r) \/ (exists f, g = FNot f /\ plain caq ws f) \/ exists k xs b, In (k, xs, b) (questions caq n ws) /\ g = FNot (annotated k xs b).
Proof.
  induction ws as [|[r f] ws IH]; intros n g H; cbn [prep questions] in *; [destruct H|].
  assert (R : forall m, In g (prep m ws) -> (exists f, g = f /\ exists r, In (r, f) ws /\ ~ to_prove caq r) \/ (exists f, g = FNot f /\ plain caq ws f) \/ exists k xs b, In (k, xs, b) (questions caq m ws) /\ g = FNot (annotated k xs b)) by auto.
  assert (W : (exists f, g = f /\ exists r, In (r, f) ws /\ ~ to_prove caq r) -> (exists f0, g = f0 /\ exists r0, In (r0, f0) ((r, f) :: ws) /\ ~ to_prove caq r0)).
  { intros (f0 & E & r0 & I & T). exists f0. split; auto. exists r0. split; auto. right. auto. }
  assert (W2 : (exists f, g = FNot f /\ plain caq ws f) -> (exists f0, g = FNot f0 /\ plain caq ((r, f) :: ws) f0)).
  { intros (f0 & E & r0 & I & T). exists f0. split; auto. exists r0. split; auto. right. auto. }
  destruct (is_question caq r) eqn:IQ.
  - destruct (leading f) as [[|y ys] c] eqn:LQ.
    + destruct H as [H|H]; [|destruct (R n H) as [X|[X|X]]; auto]. right. left. exists f. split; auto. exists r. split; [left; auto|]. split; [right; auto|]. right. rewrite LQ. reflexivity.
    + destruct H as [H|H]; [right; right; exists n, (y :: ys), c; split; [left; auto|auto]|]. destruct (R (S n) H) as [X|[X|(k & xs & b & I & E)]]; auto. right. right. exists k, xs, b. split; auto. right. auto.
  - destruct H as [H|H]; [|destruct (R n H) as [X|[X|X]]; auto]. destruct (Z.eqb r r_conjecture) eqn:RC.
    + right. left. exists f. split; auto. exists r. split; [left; auto|]. split; [left; apply Z.eqb_eq; auto|left; auto].
    + left. exists f. split; auto. exists r. split; [left; auto|]. intros T. apply to_prove_spec in T. rewrite IQ, RC in T. discriminate.
Qed.
(** well-formedness *)
Lemma fold_ok E g : forall xs, form_ok E (fold_right (FQ false) g xs) <-> Forall (fun x => is_fresh x = false) xs /\ form_ok E g.
Proof. induction xs as [|x xs IH]; cbn [fold_right form_ok]; [split; [auto|tauto]|]. rewrite IH. split; [intros (A & B & C); auto|intros [A B]; inversion A; auto]. Qed.
Lemma fold_vars g : forall xs x, In x (all_vars (fold_right (FQ false) g xs)) <-> In x xs \/ In x (all_vars g).
Proof. induction xs as [|y xs IH]; intros x; cbn [fold_right all_vars]; [cbn; tauto|]. cbn [In]. rewrite IH. tauto. Qed.
Lemma fold_syms g : forall xs, form_syms (fold_right (FQ false) g xs) = form_syms g.
Proof. induction xs as [|y xs IH]; cbn [fold_right form_syms]; auto. Qed.

(** the symbol $answer: a predicate of one argument of the sort of individuals, no distinct object, not used in the problem *)
Record answer_ok (E : env) (n : sym) (ws : list wformula) (N : list clause) : Prop := {
  an_known : answer < n; an_args : fargs (srt E) answer = [indiv]; an_res : fres (srt E) answer = fres (srt E) true_code; an_dist : dist E answer = false;
  an_true : answer <> true_code; an_false : answer <> false_code; an_forms : forall w, In w ws -> ~ In answer (form_syms (snd w)); an_clauses : forall c e, In c N -> In e c -> ~ In answer (lit_syms e) }.

Lemma prep_ok st ws ws' st' N : env_ok (c_env st) -> next_ok (c_env st) (c_next st) -> (forall w, In w ws -> input_ok st (snd w)) -> answer_ok (c_env st) (c_next st) ws N ->
  preproc_conjectures answer indiv true caq st ws = (ws', st') -> Forall (input_ok st') (map snd ws').
Proof.
  intros HE HN IN AN H. destruct (prep_spec ws st ws' st' H) as (A & B & G & D). rewrite A. apply Forall_forall. intros g Hg.
  assert (MO : forall f, input_ok st f -> input_ok st' f) by (intros f; apply input_mono; auto; intros s; rewrite B; auto).
  destruct (in_prep _ _ _ Hg) as [(f & -> & r & I & _)|[(f & -> & r & I & _)|(k & xs & b & I & ->)]].
  - apply MO, (IN (r, f) I).
  - apply MO. exact (IN (r, f) I).
  - destruct (in_questions _ _ _ _ _ I) as (_ & _ & r & f & J & _ & LQ). pose proof (MO f (IN (r, f) J)) as [OK [OV SY]]. cbn [snd] in *.
    pose proof (leading_eq f) as LE. rewrite LQ in LE. cbn [fst snd] in LE. rewrite LE in OK, OV, SY. apply fold_ok in OK. destruct OK as [FX OB]. rewrite fold_syms in SY.
    destruct (D k xs b I) as (D1 & D2 & D3). pose proof (an_known _ _ _ _ AN) as AK. pose proof (gr_ok _ _ _ _ G HE (proj1 HN)) as HE'. pose proof (grows_next _ _ _ _ G HN) as [N2 _].
    assert (AA : fargs (srt (c_env st')) answer = [indiv]) by (rewrite (gr_fargs _ _ _ _ G) by auto; apply AN).
    assert (AR : fres (srt (c_env st')) answer = fres (srt (c_env st')) true_code) by (rewrite !(gr_fres _ _ _ _ G) by (try (unfold true_code; destruct HN); lia); apply AN).
    assert (VV : flat_map vars (map Var xs) = xs) by (clear; induction xs as [|x xs IH]; cbn; congruence).
    assert (VS : flat_map tsyms (map Var xs) = []) by (clear; induction xs as [|x xs IH]; cbn; congruence).
    split; [|split].
    + cbn [form_ok]. unfold annotated. apply fold_ok. split; auto. cbn [form_ok]. split; auto. split; [|split; [apply wf_true; auto|split; [exact AR|split]]].
      * apply wf_fun. split; [|cbn [map tsort]; rewrite D3, AA; reflexivity]. constructor; auto. apply wf_fun. split; [apply Forall_forall; intros t Ht; apply in_map_iff in Ht; destruct Ht as [x [<- _]]; reflexivity|].
        rewrite D2, map_map. apply map_ext. intros x. cbn [tsort]. apply (gr_vsort _ _ _ _ G).
      * intros x Hx. cbn [vars flat_map] in Hx. rewrite app_nil_r in Hx. change (vars (Fun k (map Var xs))) with (flat_map vars (map Var xs)) in Hx. rewrite VV in Hx. rewrite Forall_forall in FX. auto.
      * intros x [].
    + intros x Hx. apply OV. cbn [all_vars] in Hx. unfold annotated in Hx. apply fold_vars in Hx. apply fold_vars. destruct Hx as [Hx|Hx]; auto. cbn [all_vars] in Hx. apply in_app_or in Hx. destruct Hx as [Hx|Hx]; auto.
      apply in_app_or in Hx. destruct Hx as [Hx|[]]. cbn [vars flat_map] in Hx. rewrite app_nil_r in Hx. change (vars (Fun k (map Var xs))) with (flat_map vars (map Var xs)) in Hx. rewrite VV in Hx. auto.
    + intros s Hs. cbn [form_syms] in Hs. unfold annotated in Hs. rewrite fold_syms in Hs. cbn [form_syms] in Hs. apply in_app_or in Hs. destruct Hs as [Hs|Hs]; auto.
      pose proof (gr_le _ _ _ _ G) as L. apply in_app_or in Hs. destruct Hs as [Hs|Hs].
      * cbn [tsyms flat_map] in Hs. rewrite app_nil_r in Hs. destruct Hs as [<-|Hs]; [lia|]. change (tsyms (Fun k (map Var xs))) with (k :: flat_map tsyms (map Var xs)) in Hs. rewrite VS in Hs. destruct Hs as [<-|[]]. lia.
      * cbn in Hs. destruct Hs as [<-|[]]. unfold true_code. lia.
Qed.

(** ** The interpretation of the answers *)
Section Extend.
Variables (st st' : cstate) (ws ws' : list wformula) (N : list clause) (M : structure).
Notation E := (c_env st).
Notation nn := (c_next st).
Notation Q := (questions caq nn ws).
Hypothesis HE : env_ok E.
Hypothesis HN : next_ok E nn.
Hypothesis IN : forall w, In w ws -> input_ok st (snd w).
Hypothesis BL : Forall (below nn) N.
Hypothesis AN : answer_ok E nn ws N.
Hypothesis PP : preproc_conjectures answer indiv true caq st ws = (ws', st').
Hypothesis HM : model_ok (srt E) (dist E) M.
Variables d0 d1 : dom M.
Hypothesis H0 : isort M indiv d0.
Hypothesis H1 : isort M indiv d1.

Definition solved (xs : list var) (b : form) (ds : list (dom M)) : Prop := exists w, respects (srt E) M w /\ map w xs = ds /\ sem (srt E) M w b.
Definition collect (xs : list var) (b : form) (ds : list (dom M)) : dom M := if excluded_middle_informative (solved xs b ds) then d1 else d0.
Definition answered (d : dom M) : Prop := exists k xs b ds, In (k, xs, b) Q /\ solved xs b ds /\ collect xs b ds = d.
Definition look (f : sym) : option (sym * list var * form) := find (fun q => Nat.eqb (fst (fst q)) f) Q.
Definition FA (f : sym) (ds : list (dom M)) : dom M :=
  if Nat.eqb f answer then match ds with [d] => if excluded_middle_informative (answered d) then ifun M true_code [] else ifun M false_code [] | _ => ifun M false_code [] end
  else if f <? nn then ifun M f ds
  else match look f with Some (_, xs, b) => collect xs b ds | None => epsilon (inhabits d0) (isort M (fres (srt (c_env st')) f)) end.

Lemma FA_old f ds : f < nn -> f <> answer -> FA f ds = ifun M f ds.
Proof. intros L NE. unfold FA. apply Nat.eqb_neq in NE. rewrite NE. apply Nat.ltb_lt in L. rewrite L. reflexivity. Qed.
Lemma FA_answer d : FA answer [d] = ifun M true_code [] <-> answered d.
Proof.
  unfold FA. rewrite Nat.eqb_refl. destruct (excluded_middle_informative (answered d)); [tauto|]. split; [intros X; exfalso; exact (mo_tf _ _ _ HM (eq_sym X))|contradiction].
Qed.
Lemma FA_new k xs b ds : In (k, xs, b) Q -> FA k ds = collect xs b ds.
Proof.
  intros I. destruct (in_questions _ _ _ _ _ I) as (L & _). pose proof (an_known _ _ _ _ AN). unfold FA. destruct (Nat.eqb_spec k answer); [lia|]. destruct (Nat.ltb_spec k nn); [lia|].
  destruct (look k) as [[[k' xs'] b']|] eqn:X; unfold look in X.
  - apply List.find_some in X. cbn [fst] in X. destruct X as [X Y]. apply Nat.eqb_eq in Y. subst k'. destruct (questions_inj _ _ _ _ _ _ _ I X) as [-> ->]. reflexivity.
  - exfalso. pose proof (find_none _ _ X _ I) as Y. cbn [fst] in Y. rewrite Nat.eqb_refl in Y. discriminate.
Qed.
Notation MA := (mk (dom M) (isort M) FA).
Lemma true_old : true_code < nn /\ true_code <> answer.
Proof. split; [unfold true_code; destruct HN; lia|]. intros X. exact (an_true _ _ _ _ AN (eq_sym X)). Qed.
Lemma false_old : false_code < nn /\ false_code <> answer.
Proof. split; [unfold false_code; destruct HN; lia|]. intros X. exact (an_false _ _ _ _ AN (eq_sym X)). Qed.
Lemma FA_model : model_ok (srt (c_env st')) (dist (c_env st')) MA.
Proof.
  destruct (prep_spec ws st ws' st' PP) as (_ & _ & G & D). destruct true_old as [T1 T2]. destruct false_old as [F1 F2].
  assert (TF : isort M (fres (srt E) true_code) (ifun M true_code []) /\ isort M (fres (srt E) true_code) (ifun M false_code [])).
  { split; [|rewrite (eo_tf _ HE)]; apply (mo_fun _ _ _ HM); [rewrite (eo_true _ HE)|rewrite (eo_false _ HE)]; constructor. }
  constructor; cbn [mk dom ifun isort].
  - intros f ds Hds. destruct (Nat.eq_dec f answer) as [->|NA].
    + pose proof (an_known _ _ _ _ AN). rewrite (gr_fres _ _ _ _ G), (an_res _ _ _ _ AN) by auto. unfold FA. rewrite Nat.eqb_refl. destruct ds as [|d [|]]; try apply TF. destruct (excluded_middle_informative _); apply TF.
    + destruct (Nat.lt_ge_cases f nn) as [L|L].
      * rewrite FA_old by auto. rewrite (gr_fres _ _ _ _ G) by auto. apply (mo_fun _ _ _ HM). rewrite <- (gr_fargs _ _ _ _ G) by auto. exact Hds.
      * unfold FA. destruct (Nat.eqb_spec f answer); [contradiction|]. destruct (Nat.ltb_spec f nn); [lia|]. destruct (look f) as [[[k' xs'] b']|] eqn:X; unfold look in X.
        -- apply List.find_some in X. cbn [fst] in X. destruct X as [X Y]. apply Nat.eqb_eq in Y. subst k'. destruct (D _ _ _ X) as (_ & _ & ->). unfold collect. destruct (excluded_middle_informative _); auto.
        -- apply epsilon_spec. apply (mo_inh _ _ _ HM).
  - apply (mo_inh _ _ _ HM).
  - rewrite !FA_old by auto. rewrite (gr_fres _ _ _ _ G) by auto. apply (mo_bool _ _ _ HM).
  - rewrite !FA_old by auto. apply (mo_tf _ _ _ HM).
  - apply (mo_dec _ _ _ HM).
  - intros f g Df Dg NE. rewrite (gr_dist _ _ _ _ G) in Df, Dg.
    assert (X : forall f, dist E f = true -> f < nn /\ f <> answer).
    { intros h Dh. split; [destruct (Nat.lt_ge_cases h nn) as [|Hh]; auto; rewrite (proj2 HN h Hh) in Dh; discriminate|]. intros ->. rewrite (an_dist _ _ _ _ AN) in Dh. discriminate. }
    rewrite !FA_old by (apply X; auto). apply (mo_dist _ _ _ HM); auto.
Qed.
Lemma FA_sem f : (forall s, In s (form_syms f) -> s < nn /\ s <> answer) -> forall v, sem (srt E) M v f <-> sem (srt E) MA v f.
Proof. intros H v. apply (sem_on_M M FA (fun s => s < nn /\ s <> answer)); auto; [intros g ds [X1 X2]; symmetry; apply FA_old; auto|apply true_old]. Qed.
Lemma form_old w : In w ws -> forall s, In s (form_syms (snd w)) -> s < nn /\ s <> answer.
Proof. intros I s Hs. split; [apply (IN w I); auto|]. intros ->. exact (an_forms _ _ _ _ AN w I Hs). Qed.
Lemma FA_clauses S : (forall c, In c N -> clause_true S M c) -> forall c, In c N -> clause_true S MA c.
Proof.
  intros H c Hc. specialize (H c Hc). apply (true_on_M M FA (fun s => s < nn /\ s <> answer)); auto; [intros g ds [X1 X2]; symmetry; apply FA_old; auto|].
  intros e f He Hf. rewrite Forall_forall in BL. split; [exact (BL c Hc e f He Hf)|]. intros ->. exact (an_clauses _ _ _ _ AN c e Hc He Hf).
Qed.
Lemma sem_sorts S S' M0 f : (forall x, vsort S x = vsort S' x) -> forall v, sem S M0 v f <-> sem S' M0 v f.
Proof.
  intros V. induction f as [p l r|t|a IH|o a IHa b IHb|q x a IH]; intros v; cbn [sem]; try tauto.
  - rewrite IH. tauto.
  - apply op_sem_iff; auto.
  - destruct q; rewrite V; split; intros H.
    + intros d Hd. apply IH. auto.
    + intros d Hd. apply IH. auto.
    + destruct H as [d [Hd H]]. exists d. split; auto. apply IH. auto.
    + destruct H as [d [Hd H]]. exists d. split; auto. apply IH. auto.
Qed.
Lemma FA_forms : (forall f, (exists r, In (r, f) ws /\ ~ to_prove caq r) -> form_true (srt E) M f) -> (forall f, plain caq ws f -> form_true (srt E) M (FNot f)) ->
  forall g, In g (map snd ws') -> form_true (srt (c_env st')) MA g.
Proof.
  intros HA HP g Hg v Hv. destruct (prep_spec ws st ws' st' PP) as (A & _ & G & D). rewrite A in Hg.
  assert (VS : forall x, vsort (srt E) x = vsort (srt (c_env st')) x) by (intros x; symmetry; apply (gr_vsort _ _ _ _ G)).
  apply (sem_sorts (srt E)); auto. assert (Rv : respects (srt E) MA v) by (intros x; rewrite VS; apply Hv).
  destruct (in_prep _ _ _ Hg) as [(f & -> & r & I & T)|[(f & -> & PF)|(k & xs & b & I & ->)]].
  - apply (FA_sem f (form_old (r, f) I)). apply HA; [exists r; auto|exact Rv].
  - destruct PF as (r & I & T). pose proof (HP f (ex_intro _ r (conj I T)) v Rv) as X. cbn [sem] in *. intros Y. apply X. apply (FA_sem f (form_old (r, f) I)). exact Y.
  - cbn [sem]. intros X. apply ex_elim in X; auto. destruct X as [w [Rw [Xb Xa]]]. destruct (in_questions _ _ _ _ _ I) as (_ & _ & r & f & J & _ & LQ).
    assert (SB : forall s, In s (form_syms b) -> s < nn /\ s <> answer).
    { pose proof (leading_eq f) as LE. rewrite LQ in LE. cbn [fst snd] in LE. intros s Hs. apply (form_old (r, f) J). cbn [snd]. rewrite LE, fold_syms. exact Hs. }
    apply (FA_sem b SB w) in Xb. apply Xa. cbn [eval map ttrue]. cbn [mk ifun]. destruct true_old as [T1 T2]. rewrite (FA_old true_code) by auto. rewrite (FA_new k xs b) by auto.
    apply FA_answer. rewrite map_map. cbn [eval]. exists k, xs, b, (map w xs). split; auto. split; auto. exists w. auto.
Qed.
(** Without a true instance nothing is an answer. *)
Lemma nothing_answered : (forall k xs b w, In (k, xs, b) Q -> respects (srt E) M w -> ~ sem (srt E) M w b) -> forall d, ~ answered d.
Proof. intros H d (k & xs & b & ds & I & (w & R & _ & S) & _). exact (H k xs b w I R S). Qed.
(** The function symbol of a question shows the solutions. *)
Lemma answered_two k xs b ds : d0 <> d1 -> In (k, xs, b) Q -> answered (collect xs b ds) -> solved xs b ds.
Proof.
  intros NE I (k' & xs' & b' & ds' & I' & S' & EQ). unfold collect in EQ. destruct (excluded_middle_informative (solved xs b ds)) as [|NS]; auto.
  destruct (excluded_middle_informative (solved xs' b' ds')); [exfalso; apply NE; auto|contradiction].
Qed.
Lemma answered_one k xs b ds : (forall d d', isort M indiv d -> isort M indiv d' -> d = d') -> Q = [(k, xs, b)] -> Forall (fun x => vsort (srt E) x = indiv) xs ->
  Forall2 (isort M) (map (vsort (srt E)) xs) ds -> answered (collect xs b ds) -> solved xs b ds.
Proof.
  intros ONE QQ VX HD (k' & xs' & b' & ds' & I' & (w & R & Ew & Sw) & _). rewrite QQ in I'. destruct I' as [I'|[]]. injection I' as <- <- <-. exists w. split; auto. split; auto.
  subst ds'. clear - ONE VX HD R. revert ds HD. induction xs as [|x xs IH]; intros ds HD; inversion HD; subst; cbn; auto. inversion VX; subst. f_equal; auto. 
Qed.
End Extend.
End Prep.
