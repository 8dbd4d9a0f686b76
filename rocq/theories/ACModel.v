(** * The structure of AC terms, in which only AC-equal terms are equal; the weight of normal forms. *)
From Coq Require Import Permutation.
From Verif Require Import Terms Semantics Clauses ClausesProofs AC ACProofs.
Local Open Scope nat_scope.

(** ** Normal forms determine the weight *)
Section Weight.
Variables (A : acsig) (S : sorting).
Hypothesis HA : acsig_ok S A.
Local Open Scope Z_scope.
Fixpoint acw (t : acterm) : Z :=
  match t with
  | AVar _ => 1
  | AFun f a => (if is_ac A f then 2 * Z.of_nat (length a) - 2 else 2) + fold_right (fun x n => acw x + n) 0 a
  end.
Definition sumw (l : list acterm) : Z := fold_right (fun x n => acw x + n) 0 l.
Lemma sumw_app l m : sumw (l ++ m) = sumw l + sumw m.
Proof. unfold sumw. induction l; cbn [List.app fold_right]; lia. Qed.
Lemma sumw_perm l m : Permutation l m -> sumw l = sumw m.
Proof. unfold sumw. induction 1; cbn [fold_right]; lia. Qed.
Lemma norm_weight t : wf S t -> acw (ac_norm A t) = stdweight t /\
  forall f, is_ac A f = true -> 2 * Z.of_nat (length (collect A f t)) - 2 + sumw (collect A f t) = stdweight t.
Proof.
  induction t as [x|f a IH] using term_ind'; intros W; [split; [reflexivity|intros f HF; reflexivity]|].
  assert (COL : is_ac A f = true -> 2 * Z.of_nat (length (collect A f (Fun f a))) - 2 + sumw (collect A f (Fun f a)) = stdweight (Fun f a)).
  { intros HF. pose proof HF as HF'. unfold is_ac in HF'. apply andb_true_iff in HF'. destruct HF' as [_ H2]. apply memb_in in H2. pose proof (proj2 HA _ H2) as O. unfold operation in O.
    destruct (wf_two S f a _ W O) as [t [u [-> [Wt [Wu _]]]]]. inversion IH as [|? ? I1 I2]; inversion I2 as [|? ? I3 _]; subst.
    pose proof (proj2 (I1 Wt) f HF) as E1. pose proof (proj2 (I3 Wu) f HF) as E2. rewrite collect_same. cbn [flat_map stdweight fold_right]. rewrite app_nil_r, app_length, sumw_app. lia. }
  assert (VAL : acw (ac_norm A (Fun f a)) = stdweight (Fun f a)).
  { destruct (is_ac A f) eqn:HF.
    - rewrite norm_ac by auto. specialize (COL eq_refl). rewrite collect_same in COL. cbn [acw]. rewrite HF. change (fold_right _ 0 ?l) with (sumw l).
      rewrite (sumw_perm _ _ (sort_is_perm _)), (Permutation_length (sort_is_perm _)). auto.
    - destruct (is_comm A f) eqn:HC.
      + pose proof HC as HC'. unfold is_comm in HC'. apply memb_in in HC'. destruct (proj1 HA _ HC') as [s Q].
        destruct (wf_two S f a s W Q) as [t [u [-> [Wt [Wu _]]]]]. inversion IH as [|? ? I1 I2]; inversion I2 as [|? ? I3 _]; subst.
        rewrite norm_c by auto. cbn [acw]. rewrite HF. change (fold_right _ 0 ?l) with (sumw l). rewrite (sumw_perm _ _ (sort_is_perm _)).
        unfold sumw. cbn [fold_right stdweight]. rewrite (proj1 (I1 Wt)), (proj1 (I3 Wu)). lia.
      + rewrite norm_free by auto. cbn [acw stdweight]. rewrite HF. f_equal. apply wf_fun in W. destruct W as [W1 _]. clear COL.
        induction a as [|b a IHa]; auto. inversion IH; inversion W1; subst. cbn [map fold_right]. rewrite IHa; auto. f_equal. apply H1. auto. }
  split; auto. intros g HG. destruct (Nat.eq_dec f g) as [->|NE]; [apply COL; auto|]. rewrite collect_other by auto. unfold sumw. cbn [length fold_right]. rewrite VAL. lia.
Qed.
Lemma norm_equal s t : wf S s -> wf S t -> ac_norm A s = ac_norm A t -> ac_equal A s t = true.
Proof.
  intros Ws Wt Q. unfold ac_equal. rewrite <- (proj1 (norm_weight s Ws)), <- (proj1 (norm_weight t Wt)), Q, Z.eqb_refl, compare_refl. reflexivity.
Qed.
End Weight.

(** ** The structure *)
Section Struct.
Variables (A : acsig) (S : sorting) (di : sym -> bool).
Notation bs := (fres S true_code).
Hypothesis HT : fargs S true_code = [].
Hypothesis HTF : fres S false_code = bs.
Hypothesis HD : forall f, di f = true -> fres S f <> bs.
Hypothesis HA : acsig_ok S A.

Definition flat (f : sym) (d : acterm) : list acterm :=
  match d with AFun g l => if Nat.eqb g f then l else [d] | AVar _ => [d] end.
Definition aop (f : sym) (ds : list acterm) : acterm :=
  if Nat.eqb (fres S f) bs then AFun (if Nat.eqb f false_code then false_code else true_code) []
  else if is_ac A f then AFun f (ac_sort (flat_map (flat f) ds))
  else if is_comm A f then AFun f (ac_sort ds)
  else AFun f ds.
Definition asort (d : acterm) : sort := match d with AVar x => vsort S x | AFun f _ => fres S f end.
Definition aisort (s : sort) (d : acterm) : Prop :=
  if Nat.eqb s bs then d = AFun true_code [] \/ d = AFun false_code [] else d = AFun 0 [] \/ asort d = s.
Definition AM : structure := {| dom := acterm; ifun := aop; isort := aisort |}.

Lemma AM_ok : model_ok S di AM.
Proof.
  constructor.
  - intros f ds _. cbn [AM isort ifun dom]. unfold aisort, aop. destruct (Nat.eqb (fres S f) bs) eqn:Q; [destruct (Nat.eqb f false_code); auto|].
    right. destruct (is_ac A f), (is_comm A f); reflexivity.
  - intros s. cbn [AM isort dom]. unfold aisort. destruct (Nat.eqb s bs); eauto.
  - intros d. cbn [AM isort ifun dom]. unfold aisort, aop. rewrite HTF, Nat.eqb_refl. auto.
  - cbn [AM ifun dom]. unfold aop. rewrite HTF, Nat.eqb_refl. cbn. discriminate.
  - cbn [AM dom]. intros d d'. destruct (ac_compare d d') eqn:Q; [left; apply compare_eq; auto| |]; right; intros ->; rewrite compare_refl in Q; discriminate.
  - intros f g Hf Hg NE. cbn [AM ifun dom]. unfold aop. apply HD in Hf. apply HD in Hg. apply Nat.eqb_neq in Hf. apply Nat.eqb_neq in Hg. rewrite Hf, Hg.
    destruct (is_ac A f), (is_comm A f), (is_ac A g), (is_comm A g); congruence.
Qed.
Lemma AM_comm f s : In f (comm A) -> commutes AM s f.
Proof.
  intros H a b _ _. cbn [AM ifun dom]. unfold aop. destruct (Nat.eqb _ bs); auto. destruct (is_ac A f).
  - f_equal. apply sort_perm. cbn [flat_map]. rewrite !app_nil_r. apply Permutation_app_comm.
  - unfold is_comm. apply memb_in in H. rewrite H. f_equal. apply sort_perm. apply perm_swap.
Qed.
Lemma AM_assoc f s : In f (comm A) -> In f (assoc A) -> associates AM s f.
Proof.
  intros H1 H2 a b c _ _ _. cbn [AM ifun dom]. unfold aop. destruct (Nat.eqb _ bs); auto. apply memb_in in H1. apply memb_in in H2. unfold is_ac. rewrite H1, H2. cbn [andb].
  f_equal. apply sort_perm. cbn [flat_map flat]. rewrite !Nat.eqb_refl, !app_nil_r.
  rewrite (sort_is_perm (flat f a ++ flat f b)), (sort_is_perm (flat f b ++ flat f c)). rewrite app_assoc. reflexivity.
Qed.

(** no subterm is a truth value *)
Definition individual (t : term) : Prop := forall u, In u (subterms t) -> tsort S u <> bs.
Definition av (x : var) : acterm := if Nat.eqb (vsort S x) bs then AFun true_code [] else AVar x.
Lemma av_ok : respects S AM av.
Proof. intros x. cbn [AM isort dom]. unfold aisort, av. destruct (Nat.eqb (vsort S x) bs); auto. Qed.
Lemma flat_norm f u : Permutation (flat f (ac_norm A u)) (collect A f u) \/ is_ac A f = false.
Proof.
  destruct (is_ac A f) eqn:HF; [left|auto]. destruct u as [x|g b]; [reflexivity|]. destruct (Nat.eq_dec g f) as [->|NE].
  - rewrite norm_ac by auto. cbn [flat]. rewrite Nat.eqb_refl, collect_same. apply sort_is_perm.
  - rewrite collect_other by auto. assert (H : exists l, ac_norm A (Fun g b) = AFun g l).
    { cbn [ac_norm]. destruct (is_ac A g); [eauto|]. destruct (is_comm A g); [|eauto]. destruct b as [|? [|? [|? ?]]]; eauto. cbv zeta. destruct (ac_compare _ _); eauto. }
    destruct H as [l ->]. cbn [flat]. apply Nat.eqb_neq in NE. rewrite NE. reflexivity.
Qed.
Lemma eval_norm t : wf S t -> individual t -> eval AM av t = ac_norm A t.
Proof.
  induction t as [x|f a IH] using term_ind'; intros W IN.
  - cbn [eval ac_norm]. unfold av. assert (X : vsort S x <> bs) by (apply (IN (Var x)); left; auto). apply Nat.eqb_neq in X. rewrite X. reflexivity.
  - assert (X : fres S f <> bs) by (apply (IN (Fun f a)); left; auto). apply Nat.eqb_neq in X.
    assert (E : map (eval AM av) a = map (ac_norm A) a).
    { apply map_ext_in. intros u Hu. rewrite Forall_forall in IH. apply wf_fun in W. destruct W as [W _]. rewrite Forall_forall in W. apply IH; auto.
      intros w Hw. apply IN. cbn [subterms]. right. apply in_flat_map. eauto. }
    cbn [eval]. rewrite E. cbn [AM ifun dom]. unfold aop. rewrite X. destruct (is_ac A f) eqn:HF.
    + rewrite norm_ac by auto. f_equal. apply sort_perm. clear - HF. induction a as [|u a IH]; cbn [map flat_map]; auto. apply Permutation_app; auto.
      destruct (flat_norm f u); [auto|congruence].
    + destruct (is_comm A f) eqn:HC.
      * pose proof HC as HC'. unfold is_comm in HC'. apply memb_in in HC'. destruct (proj1 HA _ HC') as [s Q]. destruct (wf_two S f a s W Q) as [t [u [-> _]]]. rewrite norm_c by auto. reflexivity.
      * rewrite norm_free by auto. reflexivity.
Qed.
Lemma norm_complete s t : wf S s -> wf S t -> individual s -> individual t ->
  (forall M, model_ok S di M -> (forall f, In f (comm A) -> commutes M (arg_sort S f) f) ->
     (forall f, In f (comm A) -> In f (assoc A) -> associates M (arg_sort S f) f) -> forall v, respects S M v -> eval M v s = eval M v t) ->
  ac_equal A s t = true.
Proof.
  intros Ws Wt Is It H. apply (norm_equal A S HA); auto. rewrite <- (eval_norm s), <- (eval_norm t); auto.
  apply (H AM); [apply AM_ok|intros f; apply AM_comm|intros f; apply AM_assoc|apply av_ok].
Qed.
End Struct.
