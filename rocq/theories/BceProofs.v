(** * Blocked clause elimination preserves satisfiability (C51). *)
From Coq Require Import Classical ClassicalEpsilon Permutation.
From Verif Require Import Terms Unify UnifyProofs MatchProofs Semantics Clauses ClausesProofs Taut Split Infer InferProofs InferTotal Bce BceFlip BceLoop BceEq BceNeq.
Local Open Scope nat_scope.

(** ** Term interpretations *)
Section TermModel.
Variable E : env.
Notation SS := (srt E).
Notation bool_sort := (fres SS true_code).
Hypotheses (HE : env_ok E) (HF : fo_sig E).

Definition populated (s : sort) : Prop := exists t, wf SS t /\ tsort SS t = s.
Definition dflt (s : sort) : term :=
  match excluded_middle_informative (populated s) with
  | left H => proj1_sig (constructive_indefinite_description _ H)
  | right _ => ttrue
  end.
Definition tm (A : term -> Prop) : structure := {|
  dom := term;
  ifun := fun f ds =>
    if Nat.eqb (fres SS f) bool_sort
    then if Nat.eqb f true_code then ttrue else if Nat.eqb f false_code then tfalse
         else if excluded_middle_informative (A (Fun f ds)) then ttrue else tfalse
    else match ds with [] => Fun f [] | _ => if wfb SS (Fun f ds) then Fun f ds else dflt (fres SS f) end;
  isort := fun s t => if Nat.eqb s bool_sort then t = ttrue \/ t = tfalse else (wf SS t /\ tsort SS t = s) \/ (t = ttrue /\ ~ populated s) |}.

Lemma dflt_sort s : (wf SS (dflt s) /\ tsort SS (dflt s) = s) \/ (dflt s = ttrue /\ ~ populated s).
Proof.
  unfold dflt. destruct (excluded_middle_informative (populated s)) as [H|H]; [left|right; auto].
  destruct (constructive_indefinite_description _ H) as [t Ht]. exact Ht.
Qed.
Lemma tm_true A : ifun (tm A) true_code [] = ttrue.
Proof. cbn. rewrite Nat.eqb_refl. reflexivity. Qed.
Lemma tm_false A : ifun (tm A) false_code [] = tfalse.
Proof. cbn. rewrite (eo_tf _ HE), Nat.eqb_refl. reflexivity. Qed.
Lemma tm_ok A : model_ok SS (dist E) (tm A).
Proof.
  constructor; rewrite ?tm_true, ?tm_false.
  - intros f ds H. cbn [isort ifun tm]. destruct (Nat.eqb (fres SS f) bool_sort) eqn:B.
    + destruct (Nat.eqb f true_code); auto. destruct (Nat.eqb f false_code); auto. destruct (excluded_middle_informative _); auto.
    + destruct ds as [|d ds].
      * left. split; [|reflexivity]. apply wf_fun. split; [constructor|]. inversion H. reflexivity.
      * destruct (wfb SS (Fun f (d :: ds))) eqn:W; [left; split; [exact W|reflexivity]|apply dflt_sort].
  - intros s. cbn. destruct (Nat.eqb s bool_sort); [exists ttrue; auto|]. exists (dflt s). apply dflt_sort.
  - intros d H. cbn in H. rewrite Nat.eqb_refl in H. exact H.
  - discriminate.
  - intros d d'. destruct (term_eqb d d') eqn:T; [left; apply term_eqb_eq; auto|right; apply term_eqb_neq; auto].
  - intros f g Df Dg N. destruct HF as (_ & _ & D). pose proof (D f Df) as X. pose proof (D g Dg) as Y. cbn.
    apply Nat.eqb_neq in X, Y. rewrite X, Y. intros H. injection H as H. auto.
Qed.

Lemma tm_respects A v : respects SS (tm A) v -> wfsubst SS v.
Proof.
  intros H x. specialize (H x). cbn in H. pose proof (proj1 (proj2 HF) x) as N. apply Nat.eqb_neq in N. rewrite N in H.
  destruct H as [[W T]|[_ T]]; [split; auto|]. destruct T. exists (Var x). split; reflexivity.
Qed.
Lemma tm_eval A v t : wfsubst SS v -> wf SS t -> tsort SS t <> bool_sort -> eval (tm A) v t = Terms.app v t.
Proof.
  intros Hv. induction t as [x|f a IH] using term_ind'; intros W N; [reflexivity|]. cbn [eval Terms.app].
  assert (AE : map (eval (tm A) v) a = map (Terms.app v) a).
  { apply map_ext_in. intros u Hu. rewrite Forall_forall in IH. pose proof W as W'. apply wf_fun in W'. destruct W' as [W1 W2]. rewrite Forall_forall in W1. apply IH; auto.
    apply (proj1 HF f). rewrite <- W2. apply in_map. auto. }
  assert (WA : wf SS (Fun f (map (Terms.app v) a))) by (apply (app_wf SS v (Fun f a)); auto).
  rewrite AE. cbn [ifun tm]. cbn in N. apply Nat.eqb_neq in N. rewrite N. destruct (map (Terms.app v) a); auto.
  unfold wf in WA. rewrite WA. reflexivity.
Qed.
Lemma tm_lit A v e : wfsubst SS v -> eqn_ok E e -> fo_lit E e -> equlit e = false -> (holds (tm A) v e <-> hlit A v e).
Proof.
  intros Hv (W1 & W2 & W3 & _) FO Q. destruct (fo_atom E e FO Q) as (p & a & L & R & P1 & P2). unfold holds, lit_holds, hlit. rewrite L, R in *.
  assert (B : fres SS p = bool_sort) by (cbn in W3; auto).
  assert (EV : eval (tm A) v (Fun p a) = if excluded_middle_informative (A (Terms.app v (Fun p a))) then ttrue else tfalse).
  { cbn [eval Terms.app]. assert (AE : map (eval (tm A) v) a = map (Terms.app v) a).
    { apply map_ext_in. intros u Hu. pose proof W1 as W'. apply wf_fun in W'. destruct W' as [X1 X2]. rewrite Forall_forall in X1. apply tm_eval; auto.
      apply (proj1 HF p). rewrite <- X2. apply in_map. auto. }
    rewrite AE. cbn [ifun tm]. rewrite B, Nat.eqb_refl. apply Nat.eqb_neq in P1, P2. rewrite P1, P2. reflexivity. }
  rewrite EV. replace (eval (tm A) v ttrue) with ttrue by (cbn; rewrite Nat.eqb_refl; reflexivity).
  destruct (excluded_middle_informative (A (Terms.app v (Fun p a)))) as [T|T]; destruct (pos e); split; intros H; auto; try congruence; try discriminate; try contradiction.
Qed.

Definition atoms_only (c : clause) : Prop := forall e, In e c -> equlit e = false.
Lemma tm_clause A c : clause_ok E c -> fo_clause E c -> atoms_only c -> htrue E A c -> clause_true SS (tm A) c.
Proof.
  intros CO CF CA H v Hv. apply tm_respects in Hv. specialize (H v Hv). rewrite Exists_exists in *. destruct H as [e [Ie He]]. exists e. split; auto.
  unfold clause_ok, fo_clause in *. rewrite Forall_forall in CO, CF. apply tm_lit; auto.
Qed.

Lemma valuation M : model_ok SS (dist E) M -> exists v, respects SS M v.
Proof.
  intros HM. exists (fun x => proj1_sig (constructive_indefinite_description _ (mo_inh _ _ _ HM (vsort SS x)))). intros x.
  destruct (constructive_indefinite_description _ (mo_inh _ _ _ HM (vsort SS x))). auto.
Qed.
Lemma model_atoms M N : model_ok SS (dist E) M -> satisfied E M N -> (forall c, In c N -> atoms_only c) -> exists A, forall c, In c N -> htrue E A c.
Proof.
  intros HM HS HAt. destruct (valuation M HM) as [v Hv]. exists (fun t => eval M v t = ifun M true_code []). intros c Ic s Hs.
  specialize (HS c Ic _ (respects_subst _ _ M v s HM Hv Hs)). rewrite Exists_exists in *. destruct HS as [e [Ie He]]. exists e. split; auto.
  pose proof (HAt c Ic e Ie) as Q. unfold equlit in Q. apply negb_false_iff, term_eqb_eq in Q. unfold hlit, holds, lit_holds in *. rewrite Q in He. rewrite !eval_app. exact He.
Qed.
End TermModel.

(** ** Putting it together *)
Section Main.
Variables (E : env) (alt : var -> var) (base : var -> Prop) (eno : term -> Z) (max_neg n : nat) (pick : list task -> nat).
Hypotheses (HE : env_ok E) (HF : fo_sig E) (HFS : fo_sorts (srt E) (pp E)) (HA : alt_ok E alt base) (EI : forall s t, eno s = eno t -> s = t).
Variables (limit : nat) (N : list clause).
Hypotheses (NO : Forall (clause_ok E) N) (NF : Forall (fo_clause E) N) (NB : Forall (over base) N).
Variables (m : smap) (he : bool).
Hypothesis SM : make_sym_map limit N = (m, he).
Definition initial (t : task) : Prop := tdone t = 0 /\ task_for m N t.
Notation chk := (chk_id E alt eno max_neg n he N).

Definition remaining (arch : list nat) : list clause := select N (filter (fun i => negb (existsb (Nat.eqb i) arch)) (seq 0 (length N))).
Lemma remaining_in arch D : In D (remaining arch) <-> exists d, nth_error N d = Some D /\ ~ In d arch.
Proof.
  unfold remaining, select. rewrite in_flat_map. split.
  - intros [i [Hi HD]]. apply filter_In in Hi. destruct Hi as [_ Hi]. apply negb_true_iff in Hi. destruct (nth_error N i) as [c|] eqn:Ni; [|destruct HD].
    destruct HD as [<-|[]]. exists i. split; auto. intros A. apply existsb_mem in A. congruence.
  - intros [d [Nd A]]. exists d. rewrite Nd. split; [|left; auto]. apply filter_In. split.
    + apply in_seq. assert (nth_error N d <> None) by congruence. apply nth_error_Some in H. lia.
    + apply negb_true_iff. destruct (existsb (Nat.eqb d) arch) eqn:X; auto. apply existsb_mem in X. contradiction.
Qed.
Lemma initial_wd t : initial t -> initial (with_done t 0).
Proof. intros [A B]. split; auto. Qed.

Lemma remaining_sub arch D : In D (remaining arch) -> In D N.
Proof. intros H. apply remaining_in in H. destruct H as [d [Nd _]]. eapply nth_error_In; eauto. Qed.
Lemma remaining_step arch o C D : nth_error N o = Some C -> In D (remaining arch) -> In D (C :: remaining (arch ++ [o])).
Proof.
  intros NC H. apply remaining_in in H. destruct H as [d [Nd A]]. destruct (Nat.eq_dec d o) as [->|NE]; [left; congruence|]. right.
  apply remaining_in. exists d. split; auto. intros X. apply in_app_iff in X. destruct X as [X|[X|[]]]; auto.
Qed.

(** what the loop has established about an eliminated clause *)
Lemma blocked_facts pre o : blocked E alt eno max_neg n he N initial pre o ->
  exists C j L p la, nth_error N o = Some C /\ nth_error C j = Some L /\ equlit L = false /\ lt L = Fun p la /\
    forall D, In D (remaining (pre ++ [o])) -> check E alt eno max_neg n he C j D = Some true \/ forall e a, In e D -> equlit e = false -> lt e = Fun p a -> pos e = pos L.
Proof.
  intros (t & [T0 (C & L & k & NC & NL & QL & KL & HC)] & TO & PA). unfold lit_key in KL. destruct (lt L) as [x|p la] eqn:LL; [discriminate|]. injection KL as <-.
  exists C, (tlit t), L, p, la. rewrite TO in NC. split; auto. split; auto. split; auto. split; auto. intros D HD. apply remaining_in in HD. destruct HD as [d [Nd Ad]].
  destruct (classic (exists e a, In e D /\ equlit e = false /\ lt e = Fun p a /\ pos e <> pos L)) as [(e & a & Ie & Qe & Le & Pe)|NX].
  - left. destruct (make_sym_map_spec _ _ _ _ SM) as (_ & M2 & _ & _).
    assert (KE : lit_key e = Some (opp (p, pos L))).
    { unfold lit_key, opp. rewrite Le. cbn. do 2 f_equal. destruct (pos e), (pos L); auto; congruence. }
    assert (IC : In d (tcands t)).
    { destruct (M2 d D e _ Nd Ie Qe KE) as [B|[l [B I]]]; destruct HC as [[M0 _]|[l' [M0 [NL0 TC]]]]; try congruence.
      rewrite TC, <- in_rev. congruence. }
    destruct (PA d IC) as [X|[X|X]].
    + exfalso. apply Ad. apply in_app_iff. right. left. congruence.
    + exfalso. apply Ad. apply in_app_iff. auto.
    + unfold chk_id in X. rewrite TO, NC, Nd in X. exact X.
  - right. intros e a Ie Qe Le. destruct (Bool.bool_dec (pos e) (pos L)); auto. exfalso. apply NX. exists e, a. auto.
Qed.

Lemma in_N_facts D : In D N -> clause_ok E D /\ fo_clause E D /\ over base D.
Proof. intros H. rewrite Forall_forall in NO, NF, NB. auto. Qed.
Lemma rem_facts arch : Forall (clause_ok E) (remaining arch) /\ Forall (fo_clause E) (remaining arch) /\ Forall (over base) (remaining arch).
Proof. rewrite !Forall_forall. split; [|split]; intros D HD; apply remaining_sub in HD; apply (in_N_facts D HD). Qed.

Lemma chain_back (P : list nat -> Prop) arch : chain E alt eno max_neg n he N initial [] arch ->
  (forall pre o, blocked E alt eno max_neg n he N initial pre o -> P (pre ++ [o]) -> P pre) -> P arch -> P [].
Proof.
  intros (ext & -> & H) ST. cbn [app] in *. assert (G : forall post pre, ext = pre ++ post -> P ext -> P pre).
  { induction post as [|o post IH]; intros pre EX PE; [rewrite app_nil_r in EX; congruence|].
    apply (ST pre o); [apply (H pre o post EX)|]. apply IH; auto. rewrite <- app_assoc. exact EX. }
  apply (G ext []). reflexivity.
Qed.

Lemma chain_sat arch : chain E alt eno max_neg n he N initial [] arch -> sat E (remaining arch) -> sat E (remaining []).
Proof.
  intros CH. assert (HB : {he = true} + {he = false}) by (destruct (Bool.bool_dec he true) as [B|B]; [left; exact B|right; apply Bool.not_true_is_false; exact B]).
  destruct HB as [HEQ|HEQ].
  - apply (chain_back (fun a => sat E (remaining a)) arch CH). intros pre o B [M [HM HS]].
    destruct (blocked_facts pre o B) as (C & j & L & p & la & NC & NL & QL & LL & HC). rewrite HEQ in HC.
    pose proof (nth_error_In _ _ NC) as IC. destruct (in_N_facts C IC) as (CO & CF & CB). destruct (rem_facts (pre ++ [o])) as (RO & RF & RB).
    assert (IL : In L C) by (eapply nth_error_In; eauto). unfold fo_clause, clause_ok in *.
    pose proof (proj1 (Forall_forall _ _) CF L IL) as FL. destruct (fo_atom E L FL QL) as (p' & la' & LL' & RL & P1 & P2). rewrite LL in LL'. injection LL' as <- <-.
    pose proof (proj1 (Forall_forall _ _) CO L IL) as (_ & _ & ST & _). rewrite LL, RL in ST. cbn in ST.
    destruct (eq_blocked E alt HE HF base HA M p HM P1 P2 ST eno max_neg n C j L la (remaining (pre ++ [o])) EI CO CF NL QL LL RO RF RB HC HS) as [q Hq].
    exists (setp M p q). split; [apply set_model; auto|]. intros D HD. apply Hq. apply (remaining_step pre o C D NC HD).
  - intros [M [HM HS]].
    assert (ATOMS : forall D, In D N -> atoms_only D).
    { intros D ID e Ie. destruct (make_sym_map_spec _ _ _ _ SM) as (M1 & _). apply In_nth_error in ID. destruct ID as [d Nd]. destruct (equlit e) eqn:Q; auto.
      specialize (M1 d D e Nd Ie Q). congruence. }
    destruct (model_atoms E M (remaining arch) HM HS ltac:(intros c Hc; apply ATOMS; eapply remaining_sub; eauto)) as [A0 HA0].
    assert (X : exists A, forall D, In D (remaining []) -> htrue E A D).
    { apply (chain_back (fun a => exists A, forall D, In D (remaining a) -> htrue E A D) arch CH); [|eauto].
      intros pre o B [A HS']. destruct (blocked_facts pre o B) as (C & j & L & p & la & NC & NL & QL & LL & HC). rewrite HEQ in HC.
      pose proof (nth_error_In _ _ NC) as IC. destruct (in_N_facts C IC) as (CO & CF & CB). destruct (rem_facts (pre ++ [o])) as (RO & RF & RB).
      destruct (neq_blocked E alt base HE HFS HA eno max_neg n C j L p la (remaining (pre ++ [o])) CO CF NL LL (ATOMS C IC)
        ltac:(intros D e ID; apply (ATOMS D); eapply remaining_sub; eauto) RO RF RB HC A HS') as [A' HA'].
      exists A'. intros D HD. apply HA'. apply (remaining_step pre o C D NC HD). }
    destruct X as [A XA]. exists (tm E A). split; [apply tm_ok; auto|]. intros D HD. pose proof (remaining_sub _ _ HD) as DN. destruct (in_N_facts D DN) as (X1 & X2 & X3).
    apply tm_clause; auto.
Qed.
End Main.
