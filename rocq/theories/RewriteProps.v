(** * Property C14: rewriting is sound, only makes terms smaller, ends, and reaches normal forms.
    The specification ([simp_order], [dem_ok], [equal_mod], [irreducible]) is at the end of Rewrite.v; the possible histories
    of links and dates ([reach]) and the requirement on the index ([enumerates]) are at the beginning of RewriteHist.v. *)
From Verif Require Import KBO KBOProofs KBOOrder KBOProps LPO LPOProofs LPOProps.
From Verif Require Import Terms Unify UnifyProofs Semantics Clauses MatchProofs Subsume Rewrite RewriteProofs RewriteHist ExEnv.
Local Open Scope nat_scope.

(** What a run-time configuration must satisfy: the ordering is a simplification ordering, positive answers of the program's
    comparison are right, and with strong instantiation the designated minimal terms have the sort asked for. *)
Record rw_conf (E : env) (sg : sym -> bool) (gt : term -> term -> Prop) (gtb : term -> term -> bool) (strong : bool) (minterm : sort -> term) : Prop := {
  rc_fo : fo_sorts (srt E) (pp E);
  rc_ord : simp_order (srt E) sg gt;
  rc_cmp : forall s t, good (srt E) sg s -> good (srt E) sg t -> gtb s t = true -> gt s t;
  rc_min : strong = true -> forall x, good (srt E) sg (minterm (vsort (srt E) x)) /\ tsort (srt E) (minterm (vsort (srt E) x)) = vsort (srt E) x }.

(** Whatever happened before, computing the normal form of a term ends; the result is the same term or a smaller one, of the
    same sort, equal to it in every model of the equations used so far, and (unless restricted rewriting at the top was asked
    for) no current demodulator applies anywhere in it. *)
Theorem C14_normal_form :
  forall E sg gt gtb strong minterm W R Q z0 z1 K enum full t restricted,
    rw_conf E sg gt gtb strong minterm -> reach E gtb strong minterm sg gt W R Q z0 z1 K ->
    enumerates E sg R Q enum -> good (srt E) sg t ->
    exists N W' t',
      (forall n, N <= n -> normal_form E gtb strong minterm enum (set_date z0 z1) full n W t restricted = Some (W', t')) /\
      reach E gtb strong minterm sg gt W' R Q z0 z1 K /\
      (t' = t \/ gt t t') /\ good (srt E) sg t' /\ tsort (srt E) t' = tsort (srt E) t /\
      equal_mod E K t t' /\
      (restricted = false -> irreducible E gtb (if full then R ++ Q else R) t').
Proof.
  intros E sg gt gtb strong minterm W R Q z0 z1 K enum full t restricted [C1 C2 C3 C4] HR HE Gt.
  apply (reach_normal_form E gtb strong minterm sg gt C1 C2 C3 C4 W R Q z0 z1 K HR enum full t restricted HE Gt).
Qed.

(** The answer does not depend on the bound used by the model. *)
Theorem C14_answer_unique :
  forall E gtb strong minterm enum sdate full W t restricted n1 n2 a1 a2,
    normal_form E gtb strong minterm enum sdate full n1 W t restricted = Some a1 ->
    normal_form E gtb strong minterm enum sdate full n2 W t restricted = Some a2 -> a1 = a2.
Proof.
  intros E gtb strong minterm enum sdate full W t restricted n1 n2 a1 a2 H1 H2.
  apply (run_mono E gtb strong minterm enum sdate full n1 (n1 + n2)) in H1; [|lia].
  apply (run_mono E gtb strong minterm enum sdate full n2 (n1 + n2)) in H2; [|lia].
  congruence.
Qed.

(** Clauses: normalising all literals ends, does not change the truth of the clause in any model of the equations used, makes
    no side larger, leaves no wrong orientation mark that is not flagged as out of date, and leaves no reducible side -
    except, while rewriting is limited (CPLimitedRW is still set), possibly left sides. *)
Theorem C14_clause_normal_form :
  forall E sg gt gtb strong minterm W R Q z0 z1 K enum full c limited,
    rw_conf E sg gt gtb strong minterm -> reach E gtb strong minterm sg gt W R Q z0 z1 K ->
    enumerates E sg R Q enum -> Forall (lit_ok E sg) c ->
    exists N W' c' limited',
      (forall n, N <= n -> clause_nf E gtb strong minterm enum (set_date z0 z1) full n W c limited = Some (W', c', limited')) /\
      reach E gtb strong minterm sg gt W' R Q z0 z1 K /\
      (forall M, model_ok (srt E) (dist E) M -> (forall d, In d K -> clause_true (srt E) M [dlit d]) ->
         (clause_true (srt E) M c <-> clause_true (srt E) M c')) /\
      Forall2 (fun e e' => pos e' = pos e /\ (lt e' = lt e \/ gt (lt e) (lt e')) /\ (rt e' = rt e \/ gt (rt e) (rt e')) /\
                           (mark_ok gt e -> mark_ok gt e')) c c' /\
      Forall (fun e' => irreducible E gtb (if full then R ++ Q else R) (rt e') /\
                        (limited' = false -> irreducible E gtb (if full then R ++ Q else R) (lt e'))) c'.
Proof.
  intros E sg gt gtb strong minterm W R Q z0 z1 K enum full c limited [C1 C2 C3 C4] HR HE Gc.
  destruct (clause_nf_ok E gtb strong minterm sg gt C1 C2 C3 C4 R Q z0 z1 K enum full HE c W limited HR Gc)
    as [N [W' [c' [lim' [A1 [A2 [A3 A4]]]]]]].
  exists N, W', c', lim'. split; auto. split; auto. split; [|split; auto].
  - intros M HM HT. eapply lit_below_true; eauto.
  - clear - A3. induction A3 as [|e e' c c' [P1 P2 P3 P4 P5 P6 P7] _ IH]; constructor; auto.
Qed.

(** ** The orderings of the program are admitted *)
Definition arity (S : sorting) (f : sym) : nat := length (fargs S f).
Definition in_list (sig : list sym) (f : sym) : bool := existsb (Nat.eqb f) sig.

Lemma wf_arok S t : wf S t -> arok (arity S) t = true.
Proof.
  induction t as [x|f a IH] using term_ind'; intros W; auto. apply wf_fun in W. destruct W as [W1 W2].
  apply arok_fun. split; [unfold arity; rewrite <- W2, map_length; auto|]. rewrite Forall_forall in *. auto.
Qed.
Lemma good_insig S sg t : Rewrite.good S sg t -> insig sg t = true.
Proof.
  induction t as [x|f a IH] using term_ind'; intros G; auto. apply good_fun in G. destruct G as [_ [Gf Ga]]. simpl. rewrite Gf. simpl.
  apply forallb_forall. rewrite Forall_forall in *. auto.
Qed.

Theorem C14_kbo_admitted : forall S sig o, total_prec (prec o) -> admissible o (arity S) ->
  simp_order S (in_list sig) (kbo o).
Proof.
  intros S sig o HT HA. pose proof (total_strict _ HT) as HS.
  assert (AR : forall t, Rewrite.good S (in_list sig) t -> arok (arity S) t = true) by (intros t [W _]; apply wf_arok; auto).
  split.
  - pose proof (kbo_wf o (arity S) HS HA (in_list sig) (finite_prec_wf (prec o) sig HS)) as WF.
    intros t. induction (WF t) as [t _ IH]. constructor. intros u [H [Gu Gt]]. apply IH.
    split; auto. split; split; auto; eapply good_insig; eauto.
  - intros s t u Gs Gt Gu H1 H2. apply (kbo_trans o (arity S) HS HA s t u); auto.
  - intros sb s t Gs Gt _ Gsb H. apply (kbo_stable o (arity S) HS HA); auto.
  - intros f l r s t _ _ H. apply kbo_mono. auto.
  - intros f a t G Hin. apply (kbo_subterm o (arity S) HA (Fun f a) t f a); auto.
Qed.

Theorem C14_lpo_admitted : forall S sig p, lpo_precedence p -> simp_order S (in_list sig) (lpo p).
Proof.
  intros S sig p HP. pose proof (lpo_precedence_strict p HP) as HS. split.
  - pose proof (lpo_wf p (in_list sig) (finite_prec_wf p sig HS)) as WF.
    intros t. induction (WF t) as [t _ IH]. constructor. intros u [H [Gu Gt]]. apply IH.
    split; auto. split; eapply good_insig; eauto.
  - intros s t u _ _ _. apply lpo_trans. auto.
  - intros sb s t _ _ _ _ H. apply (lpo_stable p sb (size s + size t)); auto.
  - intros f l r s t _ _ H. apply lpo_mono. auto.
  - intros f a t _ Hin. apply lpo_arg. auto.
Qed.

(** ** A concrete case: signature of ExEnv.v, KBO with weight 1 for all symbols and the precedence by symbol code; the rule
    f(f(X)) -> X, then the unoriented equation g(X,Y) = g(Y,X). *)
Definition o1 : ocb := {| fw := fun _ => 1%Z; vw := 1%Z; prec := codeprec |}.
Definition sig1 : list sym := [1; 2; 3; 4; 5; 6; 7; 8; 9; 10].
Definition gtb1 (s t : term) : bool := fst (kbo6_greater o1 kinit s t).
Definition rule1 : eqn := mkeqn (f0 (f0 X0)) X0 true true true true true false false.
Definition comm1 : eqn := mkeqn (g0 X0 Y0) (g0 Y0 X0) true false true true true false false.
Definition R1 : list dem := dems_of rule1 1.
Definition Q1 : list dem := dems_of comm1 2.
Definition enum1 (i : nat) (t : term) (z : Z) : list dem := match i with 0 => R1 | _ => Q1 end.

Lemma o1_adm : total_prec (prec o1) /\ admissible o1 (arity S0).
Proof.
  split; [apply codeprec_ok|]. split; simpl; try lia; intros; try lia.
Qed.
Example conf1 : rw_conf E0 (in_list sig1) (kbo o1) gtb1 false (fun _ => a0).
Proof.
  destruct o1_adm as [HT HA]. split.
  - exact S0_fo.
  - apply C14_kbo_admitted; auto.
  - intros s t [Ws _] [Wt _] H. 
    apply (C05_kbo_greater_decides o1 (arity S0) kinit s t HT HA (kreach_init _ _) (wf_arok _ _ Ws) (wf_arok _ _ Wt)). exact H.
  - discriminate.
Qed.
Definition goodb (t : term) : bool := wfb S0 t && insig (in_list sig1) t.
Lemma goodb_ok t : goodb t = true -> Rewrite.good S0 (in_list sig1) t.
Proof.
  intros H. apply andb_true_iff in H. destruct H as [H1 H2]. split; auto.
  clear H1. induction t as [x|f a IH] using term_ind'; intros g b Hb.
  - destruct Hb as [Q|[]]. discriminate.
  - simpl in H2. apply andb_true_iff in H2. destruct H2 as [H2 H3]. apply subterms_fun in Hb. destruct Hb as [Q|[c [Hc Hb]]].
    + injection Q as -> ->. auto.
    + rewrite Forall_forall in IH. rewrite forallb_forall in H3. apply (IH c Hc (H3 c Hc) g b Hb).
Qed.
Example dems1 : (forall d, In d R1 -> dem_ok E0 (in_list sig1) (kbo o1) d) /\ (forall d, In d Q1 -> dem_ok E0 (in_list sig1) (kbo o1) d).
Proof.
  destruct o1_adm as [HT HA]. split; intros d Hd.
  - destruct Hd as [<-|[]]. split; try reflexivity; try (apply goodb_ok; reflexivity).
    intros _. split; [|reflexivity].
    apply (C05_kbo_greater_decides o1 (arity S0) kinit _ _ HT HA (kreach_init _ _)); reflexivity.
  - destruct Hd as [<-|[<-|[]]]; split; try reflexivity; try (apply goodb_ok; reflexivity); discriminate.
Qed.
Example reach1 : reach E0 gtb1 false (fun _ => a0) (in_list sig1) (kbo o1) no_links R1 Q1 1 2 (Q1 ++ R1).
Proof.
  pose proof (r_init E0 gtb1 false (fun _ => a0) (in_list sig1) (kbo o1)) as H.
  apply (r_rule _ _ _ _ _ _ _ _ _ _ _ _ rule1) in H; [|exact (proj1 dems1)|reflexivity].
  apply (r_eqn _ _ _ _ _ _ _ _ _ _ _ _ comm1) in H; [|exact (proj2 dems1)|reflexivity].
  exact H.
Qed.
Example enum1_ok : enumerates E0 (in_list sig1) R1 Q1 enum1.
Proof. split; [intros i t z d H; exact H|intros i t z d s _ H _ _ _; exact H]. Qed.
Example nf1 : option_map snd (normal_form E0 gtb1 false (fun _ => a0) enum1 (set_date 1 2) true 20 no_links
    (p0 (g0 (f0 (f0 (f0 c0))) (f0 (f0 a0)))) false) = Some (p0 (g0 a0 (f0 c0))).
Proof. vm_compute. reflexivity. Qed.
Example nf1_again : match normal_form E0 gtb1 false (fun _ => a0) enum1 (set_date 1 2) true 20 no_links (g0 (f0 (f0 c0)) a0) false with
  | Some (W, t) => t = g0 a0 c0 /\ W (g0 (f0 (f0 c0)) a0) = Link (g0 c0 a0) false true /\ W (g0 c0 a0) = Link (g0 a0 c0) true false /\
      W (g0 a0 c0) = Dates 2 2
  | None => False end.
Proof. vm_compute. auto. Qed.
(** limited rewriting: a variant of the rule itself is not used at the top of the maximal side, but is below it *)
Definition variant1 : eqn := mkeqn (f0 (f0 Y0)) (f0 (f0 a0)) true true true true true false false.
Example clause_nf1 : match clause_nf E0 gtb1 false (fun _ => a0) enum1 (set_date 1 2) true 20 no_links [variant1] true with
  | Some (_, c, lim) => c = [mkeqn (f0 (f0 Y0)) a0 true true true true true false false] /\ lim = true
  | None => False end.
Proof. vm_compute. auto. Qed.
Example clause_nf2 : match clause_nf E0 gtb1 false (fun _ => a0) enum1 (set_date 1 2) true 20 no_links [variant1] false with
  | Some (_, c, lim) => c = [mkeqn Y0 a0 true true false true true false false] /\ lim = false
  | None => False end.
Proof. vm_compute. auto. Qed.

Print Assumptions C14_normal_form.
Print Assumptions C14_answer_unique.
Print Assumptions C14_clause_normal_form.
Print Assumptions C14_kbo_admitted.
Print Assumptions C14_lpo_admitted.
