(** * C11, C12, C13: the generating inferences. *)
From Verif Require Import Terms Unify UnifyProofs MatchProofs KBO Semantics Clauses ClausesProofs LitOrder Infer InferProofs InferTotal ExEnv.

(** ** C11 *)
Theorem C11_equality_resolution_sound : forall E fuel c i e d,
  env_ok E -> clause_ok E c -> nth_error c i = Some e -> pos e = false ->
  eq_res E fuel c i = Derived d -> clause_ok E d /\ follows E [c] d.
Proof.
  intros E n c i e d HE HC HN Hp H. destruct (eq_res_sound E n c i e HE HC HN d Hp H) as [A B].
  split; auto. intros M HM Hc. apply B; auto. apply Hc; simpl; auto.
Qed.

(** The call always returns (enough fuel exists and more changes nothing), with a clause or NULL. *)
Theorem C11_equality_resolution_returns : forall E c i e,
  env_ok E -> clause_ok E c -> nth_error c i = Some e -> answers (fun n => eq_res E n c i).
Proof. exact eq_res_answers. Qed.

(** It returns a clause whenever the two sides have a common instance, *)
Theorem C11_equality_resolution_complete : forall E c i e tau,
  env_ok E -> fo_sorts (srt E) (pp E) -> clause_ok E c -> nth_error c i = Some e ->
  wfsubst (srt E) tau -> app tau (lt e) = app tau (rt e) ->
  exists d, eventually (fun n => eq_res E n c i) (Derived d).
Proof. exact eq_res_complete. Qed.

(** and the clause is the most general one: the remaining literals under a unifier of which every
    other unifier is an instance on these literals. *)
Theorem C11_equality_resolution_most_general : forall E n c i e d,
  env_ok E -> clause_ok E c -> nth_error c i = Some e -> eq_res E n c i = Derived d ->
  exists th, wfsubst (srt E) th /\ app th (lt e) = app th (rt e)
    /\ d = finish E (map (inst_lit E th) (except i c))
    /\ forall tau, app tau (lt e) = app tau (rt e) ->
         exists rho, forall e', In e' (except i c) ->
            app rho (app th (lt e')) = app tau (lt e') /\ app rho (app th (rt e')) = app tau (rt e').
Proof. exact eq_res_mg. Qed.

(** g(X,b) != g(a,Y) | h(X,Z) = Y gives h(a,X) = b *)
Example C11_example :
  let c := [ne0 (g0 X0 b0) (g0 a0 Y0); eq0 (h0 X0 Z0) Y0] in
  clause_ok E0 c /\ eq_res E0 20 c 0 = Derived [eq0 (h0 a0 X0) b0].
Proof. split; [apply clause_okb; reflexivity | vm_compute; reflexivity]. Qed.

(** ** C12 *)
Theorem C12_ordered_factor_sound : forall E o fuel c i j e1 e2 right d,
  env_ok E -> clause_ok E c -> nth_error c i = Some e1 -> nth_error c j = Some e2 -> i <> j -> pos e1 = pos e2 ->
  ordered_factor E o fuel c i j right = Derived d -> clause_ok E d /\ follows E [c] d.
Proof.
  intros E o n c i j e1 e2 right d HE HC H1 H2 N Hp H.
  destruct (ordered_factor_sound E o n c i j e1 e2 HE HC H1 H2 right d N Hp H) as [A B].
  split; auto. intros M HM Hc. apply B; auto. apply Hc; simpl; auto.
Qed.

Theorem C12_equality_factor_sound : forall E o fuel cnt c i left1 j left2 e1 e2 d,
  env_ok E -> clause_ok E c -> nth_error c i = Some e1 -> nth_error c j = Some e2 -> i <> j -> pos e1 = true -> pos e2 = true ->
  equality_factor E o fuel cnt c i left1 j left2 = Derived d -> clause_ok E d /\ follows E [c] d.
Proof.
  intros E o n cnt c i l1 j l2 e1 e2 d HE HC H1 H2 N P1 P2 H.
  destruct (equality_factor_sound E o n c i j e1 e2 HE HC H1 H2 cnt l1 l2 d N P1 P2 H) as [A B].
  split; auto. intros M HM Hc. apply B; auto. apply Hc; simpl; auto.
Qed.

Theorem C12_factoring_returns : forall E o cnt c i j e1 e2 right left1 left2,
  env_ok E -> clause_ok E c -> nth_error c i = Some e1 -> nth_error c j = Some e2 ->
  answers (fun n => ordered_factor E o n c i j right)
  /\ answers (fun n => equality_factor E o n cnt c i left1 j left2).
Proof.
  intros. split; [eapply ordered_factor_answers; eauto | eapply equality_factor_answers; eauto].
Qed.

Theorem C12_ordered_factor_most_general : forall E o n c i j e1 e2 right d,
  env_ok E -> clause_ok E c -> nth_error c i = Some e1 -> nth_error c j = Some e2 ->
  ordered_factor E o n c i j right = Derived d ->
  exists th, let e2' := if right then swap_sides e2 else e2 in
    wfsubst (srt E) th /\ app th (lt e1) = app th (lt e2') /\ app th (rt e1) = app th (rt e2')
    /\ d = finish E (map (inst_lit E th) (except j c))
    /\ forall tau, app tau (lt e1) = app tau (lt e2') -> app tau (rt e1) = app tau (rt e2') ->
         exists rho, forall e', In e' (except j c) ->
            app rho (app th (lt e')) = app tau (lt e') /\ app rho (app th (rt e')) = app tau (rt e').
Proof. exact ordered_factor_mg. Qed.

(** p(X) | p(f(Y)) | Y = a gives p(f(X)) | X = a, *)
Example C12_factor_example :
  let c := [at0 (p0 X0); at0 (p0 (f0 Y0)); eq0 Y0 a0] in
  clause_ok E0 c /\ ordered_factor E0 o0 20 c 0 1 false = Derived [at0 (p0 (f0 X0)); eq0 X0 a0].
Proof. split; [apply clause_okb; reflexivity | vm_compute; reflexivity]. Qed.

(** g(X,a) = X | g(b,Y) = f(Y) gives b != f(a) | g(b,a) = f(a) *)
Example C12_equality_factor_example :
  let c := [eq0 (g0 X0 a0) X0; eq0 (g0 b0 Y0) (f0 Y0)] in
  clause_ok E0 c /\ equality_factor E0 o0 20 reset c 0 true 1 true =
    Derived [eq0 (g0 b0 a0) (f0 a0); ne0 b0 (f0 a0)].
Proof. split; [apply clause_okb; reflexivity | vm_compute; reflexivity]. Qed.

(** The equality factoring conclusion is NOT in general the most general one (ccl_factor.c:299
    normalises the variables of all literals but the second, line 306 copies all but the first):
    from g(X,Y) = f(Y) | f(Z) = a with f(Z) and f(Y) unified it builds g(X,X) = f(X) | a != g(X,X),
    where a fresh variable has been identified with a private variable of the second literal,
    instead of g(X,Y) = f(Y) | a != g(X,Y).  The result is sound but an inference is lost. *)
Theorem C12_equality_factor_may_merge_variables_refuted : exists c i left1 j left2 e1 e2 d,
  clause_ok E0 c /\ nth_error c i = Some e1 /\ nth_error c j = Some e2 /\ i <> j /\ pos e1 = true /\ pos e2 = true
  /\ equality_factor E0 o0 20 reset c i left1 j left2 = Derived d
  /\ exists th, app th (side e1 left1) = app th (side e2 left2)
      /\ forall rho, ~ (forall e', In e' (except i c) -> exists d', In d' d /\
            app rho (lt d') = app th (lt e') /\ app rho (rt d') = app th (rt e')).
Proof.
  exists [eq0 (g0 X0 Y0) (f0 Y0); eq0 (f0 Z0) a0], 1, true, 0, false.
  do 3 eexists. split; [apply clause_okb; reflexivity|].
  split; [reflexivity|]. split; [reflexivity|]. split; [discriminate|]. split; [reflexivity|]. split; [reflexivity|].
  split; [vm_compute; reflexivity|].
  exists (fun x => match x with 4 => Y0 | _ => Var x end). split; [reflexivity|].
  intros rho H. destruct (H _ (or_introl eq_refl)) as [d' [Hd [A B]]].
  destruct Hd as [<-|[<-|[]]]; cbn in A, B; congruence.
Qed.

(** ** C13 *)
Theorem C13_paramodulation_sound : forall E o fuel ty cf fi fs ci ii is p fl d,
  env_ok E -> clause_ok E cf -> clause_ok E ci -> nth_error cf fi = Some fl -> pos fl = true ->
  paramod E o fuel ty cf fi fs ci ii is p = Derived d -> clause_ok E d /\ follows E [cf; ci] d.
Proof.
  intros E o n ty cf fi fs ci ii is p fl d HE H1 H2 Hf Hp H.
  destruct (paramod_sound E o n ty cf fi fs ci ii is p fl d HE H1 H2 Hf Hp H) as [A B].
  split; auto. intros M HM Hc. apply B; auto; apply Hc; simpl; auto.
Qed.

Theorem C13_ordered_paramod_sound : forall E o fuel cf fi fs ci ii is p fl d,
  env_ok E -> clause_ok E cf -> clause_ok E ci -> nth_error cf fi = Some fl -> pos fl = true ->
  ordered_paramod E o fuel cf fi fs ci ii is p = Derived d -> clause_ok E d /\ follows E [cf; ci] d.
Proof.
  intros E o n cf fi fs ci ii is p fl d HE H1 H2 Hf Hp H.
  destruct (ordered_paramod_sound E o n cf fi fs ci ii is p fl d HE H1 H2 Hf Hp H) as [A B].
  split; auto. intros M HM Hc. apply B; auto; apply Hc; simpl; auto.
Qed.

Theorem C13_paramodulation_returns : forall E o ty cf fi fs ci ii is p fl il it,
  env_ok E -> clause_ok E cf -> clause_ok E ci ->
  nth_error cf fi = Some fl -> nth_error ci ii = Some il -> subterm_at (side il is) p = Some it ->
  answers (fun n => paramod E o n ty cf fi fs ci ii is p).
Proof. exact paramod_answers. Qed.

(** The plain variant builds the overlap under a most general unifier (the parents do not share
    variables in E; nothing of the kind is needed here). *)
Theorem C13_plain_paramodulation_most_general : forall E n cf fi fs ci ii is p fl il it st d,
  env_ok E -> clause_ok E cf -> clause_ok E ci ->
  nth_error cf fi = Some fl -> nth_error ci ii = Some il -> subterm_at (side il is) p = Some it ->
  mgu n (srt E) (pp E) start (side fl fs) it = Success st ->
  plain_construct E n st cf fi fs ci ii is p = Derived d ->
  exists th t, wfsubst (srt E) th /\ app th (side fl fs) = app th it
    /\ replace_at (side il is) p (side fl (negb fs)) = Some t
    /\ d = finish E (eqn_alloc E (app th t) (app th (side il (negb is))) (pos il)
                     :: map (inst_lit E th) (except ii ci) ++ map (inst_lit E th) (except fi cf))
    /\ forall tau, app tau (side fl fs) = app tau it ->
         exists rho, forall e', In e' (ci ++ cf) ->
            app rho (app th (lt e')) = app tau (lt e') /\ app rho (app th (rt e')) = app tau (rt e').
Proof.
  intros E n cf fi fs ci ii is p fl il it st d HE HCf HCi Hf Hi Hit G H.
  destruct (side_ok E fl fs (clause_ok_nth E fi cf fl HCf Hf)) as [W1 [P1 _]].
  destruct (side_ok E il is (clause_ok_nth E ii ci il HCi Hi)) as [W2 [P2 _]].
  pose proof (subterm_at_in _ _ _ Hit) as Sub.
  destruct (good_mgu E n start _ _ st (good_start E) W1 (wf_subterm _ _ _ W2 Sub) P1 (primary_subterm _ _ P2 Sub) G) as [HG HS].
  destruct (plain_mg E n cf fi fs ci ii is p fl il it st d HE HCf HCi Hf Hi Hit HG H) as [th [t [A [B [C [D F]]]]]].
  exists th, t. split; auto. split; [apply HS; auto|]. split; auto. split; auto.
  intros tau Ht. apply F. apply HS. split; auto. intros x u Hx. discriminate.
Qed.

(** f(X) = g(X,Y) | q(X,Y) into p(g(f(a),U)) gives p(g(g(a,X),Y)) | q(a,X); the simultaneous
    variants replace every occurrence of the overlapped term. *)
Example C13_example :
  let cf := [eq0 (f0 X0) (g0 X0 Y0); at0 (q0 X0 Y0)] in
  let ci := [at0 (p0 (g0 (f0 a0) U0)); eq0 (f0 a0) U0] in
  clause_ok E0 cf /\ clause_ok E0 ci
  /\ paramod E0 o0 30 PmPlain cf 0 true ci 0 true [0; 0] =
       Derived [at0 (p0 (g0 (g0 a0 Y0) X0)); eq0 (f0 a0) X0; at0 (q0 a0 Y0)]
  /\ paramod E0 o0 30 PmSim cf 0 true ci 0 true [0; 0] =
       Derived [at0 (p0 (g0 (g0 a0 Y0) X0)); eq0 (g0 a0 Y0) X0; at0 (q0 a0 Y0)]
  /\ paramod E0 o0 30 PmSuperSim cf 0 true ci 0 true [0; 0] =
       Derived [at0 (p0 (g0 (g0 a0 Y0) X0)); eq0 (g0 a0 Y0) X0; at0 (q0 a0 Y0)]
  /\ ordered_paramod E0 o0 30 cf 0 true ci 0 true [0; 0] =
       Derived [at0 (p0 (g0 (g0 a0 Y0) X0)); eq0 (f0 a0) X0; at0 (q0 a0 Y0)].
Proof. repeat split; try (apply clause_okb; reflexivity); vm_compute; reflexivity. Qed.

(** The signature of the examples has models, so [follows] is not vacuous. *)
Example C11_C12_C13_models_exist : model_ok (srt E0) (dist E0) M0
  /\ clause_true (srt E0) M0 [ne0 (f0 X0) X0] /\ ~ clause_true (srt E0) M0 [eq0 (f0 X0) X0].
Proof.
  split; [exact M0_ok|]. split.
  - intros v _. constructor. unfold holds, lit_holds. cbn. lia.
  - intros H. specialize (H (fun _ => 0)). assert (R : respects (srt E0) M0 (fun _ => 0)) by (intros x; exact I).
    specialize (H R). inversion H as [? ? Hx|? ? Hx]; subst; [cbv in Hx; discriminate | inversion Hx].
Qed.

Print Assumptions C11_equality_resolution_sound.
Print Assumptions C11_equality_resolution_returns.
Print Assumptions C11_equality_resolution_complete.
Print Assumptions C11_equality_resolution_most_general.
Print Assumptions C12_ordered_factor_sound.
Print Assumptions C12_equality_factor_sound.
Print Assumptions C12_factoring_returns.
Print Assumptions C12_ordered_factor_most_general.
Print Assumptions C12_equality_factor_may_merge_variables_refuted.
Print Assumptions C13_paramodulation_sound.
Print Assumptions C13_ordered_paramod_sound.
Print Assumptions C13_paramodulation_returns.
Print Assumptions C13_plain_paramodulation_most_general.
