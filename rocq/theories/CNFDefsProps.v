(** * C53: definitions for subformulas, and the whole conversion of a set of formulas.

    [introduce_defs] replaces subformulas by new atoms and adds their definitions, [set_cnf] is the conversion of a set of formulas into clauses
    (simplification, definitions, clausification).  Meaning, states and [input_ok] are those of C34.  [estimate] decides which subformulas are
    replaced: any function.  [keeps arrange]: [arrange] is any order of the variables. *)
From Coq Require Import Permutation.
From Verif Require Import Terms Unify KBO Semantics Clauses ClausesProofs LitOrder Infer InferProofs Split SplitProofs SplitSemProofs CNF CNFProofs CNFTermProofs CNFSkolemProofs CNFMainProofs CNFProps ExEnv CNFDefs CNFDefsProofs.

(** only the connectives that are left by simplification; see C34_steps_terminate and C53_simplified *)
Definition simplified (f : form) : Prop := basic f.
Theorem C53_simplified limit f : exists g, simplify limit f = Some g /\ simplified g.
Proof. apply simplify_good. Qed.

Section All.
  Variables (arrange : list var -> list var) (estimate : form -> bool -> Z) (def_limit mlimit : Z) (unroll : bool).
  Hypothesis HA : keeps arrange.
  Notation true_in E M f := (form_true (srt E) M f).

  Lemma inputs_good st (fs : list (bool * form)) : Forall (fun cf => input_ok st (snd cf) /\ simplified (snd cf)) fs -> Forall (good (c_env st) (c_next st) (c_vars st)) (map snd fs).
  Proof. intros H. apply Forall_forall. intros f Hf. apply in_map_iff in Hf. destruct Hf as [cf [<- Hc]]. rewrite Forall_forall in H. destruct (H cf Hc) as [[A B] C]. split; auto. Qed.

  (** ** Introducing definitions *)
  (** every structure in which the new formulas are true is one in which the given formulas are true *)
  Theorem C53_definitions_sound st fs hs st' M : env_ok (c_env st) -> next_ok (c_env st) (c_next st) ->
    Forall (fun cf => input_ok st (snd cf) /\ simplified (snd cf)) fs -> introduce_defs arrange estimate def_limit st fs = (hs, st') ->
    (forall h, In h hs -> true_in (c_env st') M h) -> forall cf, In cf fs -> true_in (c_env st) M (snd cf).
  Proof. intros HE HN IN H. apply inputs_good in IN. apply (introduce_spec st arrange estimate def_limit fs HE HN HA IN hs st' H). Qed.
  (** every model of the given formulas becomes a model of the new ones by interpreting new symbols only *)
  Theorem C53_definitions_extend st fs hs st' M : env_ok (c_env st) -> next_ok (c_env st) (c_next st) ->
    Forall (fun cf => input_ok st (snd cf) /\ simplified (snd cf)) fs -> introduce_defs arrange estimate def_limit st fs = (hs, st') ->
    model_ok (srt (c_env st)) (dist (c_env st)) M -> (forall cf, In cf fs -> true_in (c_env st) M (snd cf)) ->
    exists M', same_below (c_next st) M M' /\ model_ok (srt (c_env st')) (dist (c_env st')) M' /\ forall h, In h hs -> true_in (c_env st') M' h.
  Proof.
    intros HE HN IN H HM X. apply inputs_good in IN. destruct (introduce_spec st arrange estimate def_limit fs HE HN HA IN hs st' H) as [_ [_ [_ [_ C]]]]. destruct M as [D F so].
    destruct (C D so F HM X) as [F' [A [B Y]]]. exists (mk D so F'). split; [|split; auto]. exists F'. split; auto. intros f ds Hf. symmetry. apply A; auto.
  Qed.
  (** the new formulas are well-formed over the new signature, which agrees with the old one on the old symbols *)
  Theorem C53_definitions_well_formed st fs hs st' : env_ok (c_env st) -> next_ok (c_env st) (c_next st) ->
    Forall (fun cf => input_ok st (snd cf) /\ simplified (snd cf)) fs -> introduce_defs arrange estimate def_limit st fs = (hs, st') ->
    env_ok (c_env st') /\ next_ok (c_env st') (c_next st') /\ c_next st <= c_next st' /\ Forall (input_ok st') hs /\
    (forall x, vsort (srt (c_env st')) x = vsort (srt (c_env st)) x) /\
    forall f, f < c_next st -> fres (srt (c_env st')) f = fres (srt (c_env st)) f /\ fargs (srt (c_env st')) f = fargs (srt (c_env st)) f.
  Proof.
    intros HE HN IN H. apply inputs_good in IN. destruct (introduce_spec st arrange estimate def_limit fs HE HN HA IN hs st' H) as [G [_ [A _]]].
    split; [apply (gr_ok _ _ _ _ G HE (proj1 HN))|]. split; [apply (grows_next _ _ _ _ G HN)|]. split; [apply (gr_le _ _ _ _ G)|]. split; auto.
    split; [apply (gr_vsort _ _ _ _ G)|]. intros f Hf. split; [apply (gr_fres _ _ _ _ G)|apply (gr_fargs _ _ _ _ G)]; auto.
  Qed.
  (** with the limit 0 nothing changes *)
  Theorem C53_no_definitions st fs : introduce_defs arrange estimate 0 st fs = (map snd fs, st).
  Proof.
    assert (X : forall ds, set_find_defs arrange estimate 0 fs ds = ds).
    { intros ds. unfold set_find_defs. induction fs as [|cf l IH]; cbn [fold_left]; auto. rewrite andb_false_r. exact IH. }
    assert (Y : forall f, copy_def [] None f = f) by (induction f as [| |a IH|o a IHa b IHb|q x a IH]; cbn; congruence).
    unfold introduce_defs. rewrite X. cbn [d_defs d_env d_next map]. rewrite app_nil_r. destruct st. f_equal. apply map_ext. intros cf. apply Y.
  Qed.

  (** ** The whole conversion *)
  Lemma simplify_all fs st : env_ok (c_env st) -> next_ok (c_env st) (c_next st) -> Forall (input_ok st) fs ->
    exists gs, mapo (simplify 0) fs = Some gs /\ Forall (fun cf => input_ok st (snd cf) /\ simplified (snd cf)) (map (pair false) gs) /\
      forall M, model_ok (srt (c_env st)) (dist (c_env st)) M -> ((forall g, In g gs -> true_in (c_env st) M g) <-> (forall f, In f fs -> true_in (c_env st) M f)).
  Proof.
    intros HE [N2 _]. induction fs as [|f fs IH]; intros IN; [exists []; split; auto; split; [constructor|]; intros M _; cbn; tauto|].
    inversion IN as [|f0 l0 [OK [OV SY]] B Q]; subst. destruct (IH B) as [gs [A1 [A2 A3]]]. destruct (simplify_good 0 f) as [g [S1 S2]]. cbn [mapo]. rewrite S1, A1.
    unfold simplify in S1. apply (simp_better _ HE) in S1. destruct S1 as [b1 b2 b3 b4]. exists (g :: gs). split; auto. split.
    - constructor; auto. cbn [snd]. split; auto. split; auto. split; [intros x Hx; apply OV, b2, Hx|]. intros s Hs. destruct (b3 s Hs) as [X|[-> | ->]]; auto; unfold true_code, false_code; lia.
    - intros M HM. specialize (A3 M HM). assert (X : true_in (c_env st) M g <-> true_in (c_env st) M f) by (split; intros T v Hv; apply (b4 OK M v HM Hv), T, Hv).
      split; intros H h [<-|Hh].
      + apply X, H. left; auto.
      + apply (proj1 A3); auto. intros k Hk. apply H. right; auto.
      + apply X, H. left; auto.
      + apply (proj2 A3); auto. intros k Hk. apply H. right; auto.
  Qed.

  Theorem C53_terminates fs st : env_ok (c_env st) -> next_ok (c_env st) (c_next st) -> Forall (input_ok st) fs ->
    exists cs st' N, forall fuel, N <= fuel -> set_cnf fuel arrange estimate def_limit mlimit unroll st fs = Some (cs, st').
  Proof.
    intros HE HN IN. destruct (simplify_all fs st HE HN IN) as [gs [H [G _]]]. destruct (introduce_defs arrange estimate def_limit st (map (pair false) gs)) as [hs st1] eqn:Q.
    destruct (C53_definitions_well_formed st _ hs st1 HE HN G Q) as [HE1 [HN1 [_ [I1 _]]]]. destruct (C34_terminates arrange mlimit unroll HA hs st1 HE1 HN1 I1) as [cs [st' [N X]]].
    exists cs, st', N. intros fuel L. unfold set_cnf. rewrite H, Q. auto.
  Qed.

  Lemma cnf_split fuel fs st cs st' : env_ok (c_env st) -> next_ok (c_env st) (c_next st) -> Forall (input_ok st) fs ->
    set_cnf fuel arrange estimate def_limit mlimit unroll st fs = Some (cs, st') ->
    exists gs hs st1, Forall (fun cf => input_ok st (snd cf) /\ simplified (snd cf)) (map (pair false) gs) /\ introduce_defs arrange estimate def_limit st (map (pair false) gs) = (hs, st1) /\
      clausify_all fuel arrange mlimit unroll st1 hs = Some (cs, st') /\ env_ok (c_env st1) /\ next_ok (c_env st1) (c_next st1) /\ Forall (input_ok st1) hs /\
      forall M, model_ok (srt (c_env st)) (dist (c_env st)) M -> ((forall g, In g gs -> true_in (c_env st) M g) <-> (forall f, In f fs -> true_in (c_env st) M f)).
  Proof.
    intros HE HN IN H. destruct (simplify_all fs st HE HN IN) as [gs [X [G Y]]]. unfold set_cnf in H. rewrite X in H.
    destruct (introduce_defs arrange estimate def_limit st (map (pair false) gs)) as [hs st1] eqn:Q. exists gs, hs, st1.
    destruct (C53_definitions_well_formed st _ hs st1 HE HN G Q) as [HE1 [HN1 [_ [I1 _]]]]. auto 10.
  Qed.

  Theorem C53_well_formed fuel fs st cs st' : env_ok (c_env st) -> next_ok (c_env st) (c_next st) -> Forall (input_ok st) fs ->
    set_cnf fuel arrange estimate def_limit mlimit unroll st fs = Some (cs, st') ->
    env_ok (c_env st') /\ next_ok (c_env st') (c_next st') /\ c_next st <= c_next st' /\ Forall (clause_ok (c_env st')) cs /\ Forall (below (c_next st')) cs /\
    (forall x, vsort (srt (c_env st')) x = vsort (srt (c_env st)) x) /\
    forall f, f < c_next st -> fres (srt (c_env st')) f = fres (srt (c_env st)) f /\ fargs (srt (c_env st')) f = fargs (srt (c_env st)) f.
  Proof.
    intros HE HN IN H. destruct (cnf_split fuel fs st cs st' HE HN IN H) as [gs [hs [st1 [G [Q [C [HE1 [HN1 [I1 _]]]]]]]]].
    destruct (C53_definitions_well_formed st _ hs st1 HE HN G Q) as [_ [_ [L [_ [V F]]]]].
    destruct (C34_well_formed arrange mlimit unroll HA fuel hs st1 cs st' HE1 HN1 I1 C) as [A1 [A2 [A3 [A4 [A5 [A6 A7]]]]]].
    split; auto. split; auto. split; [lia|]. split; auto. split; auto. split; [intros x; rewrite A6; auto|]. intros f Hf. destruct (F f Hf) as [<- <-]. apply A7. lia.
  Qed.

  (** every model of the formulas becomes a model of the clauses by interpreting new symbols only *)
  Theorem C53_models_extend fuel fs st cs st' M : env_ok (c_env st) -> next_ok (c_env st) (c_next st) -> Forall (input_ok st) fs ->
    set_cnf fuel arrange estimate def_limit mlimit unroll st fs = Some (cs, st') ->
    model_ok (srt (c_env st)) (dist (c_env st)) M -> (forall f, In f fs -> true_in (c_env st) M f) ->
    exists M', same_below (c_next st) M M' /\ model_ok (srt (c_env st')) (dist (c_env st')) M' /\ satisfied (c_env st') M' cs.
  Proof.
    intros HE HN IN H HM X. destruct (cnf_split fuel fs st cs st' HE HN IN H) as [gs [hs [st1 [G [Q [C [HE1 [HN1 [I1 S]]]]]]]]].
    destruct (C53_definitions_well_formed st _ hs st1 HE HN G Q) as [_ [_ [L _]]].
    destruct (C53_definitions_extend st _ hs st1 M HE HN G Q HM) as [M1 [[F1 [-> B1]] [M1ok T1]]].
    { intros cf Hc. apply in_map_iff in Hc. destruct Hc as [g [<- Hg]]. apply (S M HM); auto. }
    destruct (C34_models_extend arrange mlimit unroll HA fuel hs st1 cs st' _ HE1 HN1 I1 C M1ok T1) as [M2 [[F2 [-> B2]] [M2ok T2]]].
    eexists. split; [|split; [exact M2ok|exact T2]]. exists F2. split; [reflexivity|]. intros f ds Hf. rewrite B2 by lia. apply B1; auto.
  Qed.

  (** the clauses are satisfiable iff the formulas are *)
  Theorem C53_satisfiable fuel fs st cs st' : env_ok (c_env st) -> next_ok (c_env st) (c_next st) -> Forall (input_ok st) fs ->
    set_cnf fuel arrange estimate def_limit mlimit unroll st fs = Some (cs, st') ->
    (sat (c_env st') cs <-> exists M, model_ok (srt (c_env st)) (dist (c_env st)) M /\ forall f, In f fs -> true_in (c_env st) M f).
  Proof.
    intros HE HN IN H. split.
    - intros HS. destruct (cnf_split fuel fs st cs st' HE HN IN H) as [gs [hs [st1 [G [Q [C [HE1 [HN1 [I1 S]]]]]]]]].
      apply (C34_satisfiable arrange mlimit unroll HA fuel hs st1 cs st' HE1 HN1 I1 C) in HS. destruct HS as [M [HM T]].
      pose proof (inputs_good _ _ G) as GG. destruct (introduce_spec st arrange estimate def_limit _ HE HN HA GG hs st1 Q) as [GR _].
      destruct (restrict _ _ _ _ M GR HN HM) as [F [AF MF]]. pose proof (C53_definitions_sound st _ hs st1 M HE HN G Q T) as T0. destruct M as [D FM so]. cbn [dom isort ifun] in *.
      exists (mk D so F). split; auto. apply (S _ MF). intros g Hg v Hv. rewrite Forall_forall in G. destruct (G (false, g) (in_map _ _ _ Hg)) as [[_ [_ SY]] _].
      apply (agree_sem D so (srt (c_env st)) (c_next st) FM F g AF (proj1 HN) SY). apply (T0 (false, g) (in_map _ _ _ Hg) v Hv).
    - intros [M [HM X]]. destruct (C53_models_extend fuel fs st cs st' M HE HN IN H HM X) as [M' [_ [B C]]]. exists M'. auto.
  Qed.
End All.

(** ** Examples *)
(** (p(a) & p(b)) | (p(a) <=> p(b)) and q(X,Y) | ~(p(a) & p(b)): with every large enough subformula renamed, the first disjunct gets an
    equivalence since it occurs with both polarities, the second disjunct an implication *)
Definition conj53 : form := FBin And (at1 (p0 a0)) (at1 (p0 b0)).
Definition eqv53 : form := FBin Equiv (at1 (p0 X0)) (at1 (p0 b0)).
Definition fs53 : list form := [FQ true 0 (FBin Or conj53 eqv53); FBin Or (at1 (q0 X0 Y0)) (FNot conj53)].
Definition est53 (f : form) (s : bool) : Z := match f with FLit _ _ _ => 1%Z | _ => 2%Z end.
Example inputs53 : Forall (input_ok St0) fs53.
Proof.
  assert (OV : forall x, x < 10 -> old_var E0 (fun _ => 5) x).
  { intros x Hx k Hk EQ. pose proof (prim_fresh (Datatypes.S (2 * k)) (eo_fresh_cell E0 E0_ok 0 k)) as P. cbn [E0 fresh] in EQ. lia. }
  constructor; [|constructor; [|constructor]]; (split; [cbn; repeat split; auto; try (apply wfb_ok; reflexivity); try (intros x Hx; repeat (destruct Hx as [<-|Hx]; [reflexivity|]); destruct Hx)|
    split; [intros x Hx; apply OV; cbn in Hx; repeat (destruct Hx as [<-|Hx]; [lia|]); destruct Hx|intros s Hs; cbn in Hs |- *; unfold true_code in Hs; lia]]).
Qed.
Example simplified53 : Forall (fun cf => input_ok St0 (snd cf) /\ simplified (snd cf)) (map (pair false) fs53).
Proof. pose proof inputs53 as H. inversion H as [|a l A B]; subst. inversion B as [|b l' C D]; subst. apply Forall_cons; [split; auto; cbn; tauto|]. apply Forall_cons; [split; auto; cbn; tauto|]. apply Forall_nil. Qed.
Example ex_defs : exists hs st', introduce_defs (fun l => l) est53 1 St0 (map (pair false) fs53) = (hs, st') /\ c_next st' = 33 /\
  hs = [FQ true 0 (FBin Or (at1 (Fun 30 [])) (at1 (Fun 31 [X0])));
        FBin Or (at1 (q0 X0 Y0)) (at1 (Fun 32 []));
        FBin Equiv (at1 (Fun 30 [])) conj53;
        FQ true 0 (FBin Impl (at1 (Fun 31 [X0])) eqv53);
        FBin Impl (at1 (Fun 32 [])) (FNot (at1 (Fun 30 [])))].
Proof. eexists. eexists. split; [vm_compute; reflexivity|]. split; vm_compute; reflexivity. Qed.
Example ex_cnf : exists cs st', set_cnf 50 (fun l => l) est53 1 1000 true St0 fs53 = Some (cs, st') /\ c_next st' = 33 /\ length cs = 8.
Proof. eexists. eexists. split; [vm_compute; reflexivity|]. split; vm_compute; reflexivity. Qed.

Print Assumptions C53_simplified.
Print Assumptions C53_definitions_sound.
Print Assumptions C53_definitions_extend.
Print Assumptions C53_definitions_well_formed.
Print Assumptions C53_no_definitions.
Print Assumptions C53_terminates.
Print Assumptions C53_well_formed.
Print Assumptions C53_models_extend.
Print Assumptions C53_satisfiable.
