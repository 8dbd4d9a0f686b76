(** * Specification: meaning of terms, literals and clauses.

    Nothing here models code: it is the standard semantics of many-sorted first-order logic with
    equality, against which the inference rules of the model are judged.  E represents every
    literal as an equation or disequation between two terms; a literal p(t) is the equation
    p(t) = $true (CLAUSES/ccl_eqn.h:38-110), so truth values are domain elements. *)
From Verif Require Import Terms.

(** SIG_TRUE_CODE, SIG_FALSE_CODE: TERMS/cte_signature.h:191-192. *)
Definition true_code : sym := 1.
Definition false_code : sym := 2.
Definition ttrue : term := Fun true_code [].
Definition tfalse : term := Fun false_code [].

Record structure := {
  dom : Type;
  ifun : sym -> list dom -> dom;
  isort : sort -> dom -> Prop }.

(** Value of a term under a valuation of the variables. *)
Fixpoint eval (M : structure) (v : var -> dom M) (t : term) : dom M :=
  match t with
  | Var x => v x
  | Fun f args => ifun M f (map (eval M v) args)
  end.

(** A literal: equation or disequation. *)
Definition lit_holds (M : structure) (v : var -> dom M) (p : bool) (l r : term) : Prop :=
  if p then eval M v l = eval M v r else eval M v l <> eval M v r.

(** Valuations give every variable a value of its sort. *)
Definition respects (S : sorting) (M : structure) (v : var -> dom M) : Prop :=
  forall x, isort M (vsort S x) (v x).

(** Interpretations of the signature: functions respect sorts, no sort is empty, the sort of the
    truth constants contains just the two different truth values, equality is decidable
    (classically this is no restriction), and symbols from [dist] that are constants (numbers and
    "distinct objects") denote different things. *)
Record model_ok (S : sorting) (dist : sym -> bool) (M : structure) : Prop := {
  mo_fun : forall f ds, Forall2 (isort M) (fargs S f) ds -> isort M (fres S f) (ifun M f ds);
  mo_inh : forall s, exists d, isort M s d;
  mo_bool : forall d, isort M (fres S true_code) d -> d = ifun M true_code [] \/ d = ifun M false_code [];
  mo_tf : ifun M true_code [] <> ifun M false_code [];
  mo_dec : forall d d' : dom M, d = d' \/ d <> d';
  mo_dist : forall f g, dist f = true -> dist g = true -> f <> g -> ifun M f [] <> ifun M g [] }.

Lemma eval_ext M v1 v2 t : (forall x, In x (vars t) -> v1 x = v2 x) -> eval M v1 t = eval M v2 t.
Proof.
  induction t as [x|f a IH] using term_ind'; intros H; simpl.
  - apply H. left; reflexivity.
  - f_equal. apply map_ext_in. intros y Hy. rewrite Forall_forall in IH. apply IH; auto.
    intros x Hx. apply H. simpl. apply in_flat_map. eauto.
Qed.

Lemma eval_app M v s t : eval M v (app s t) = eval M (fun x => eval M v (s x)) t.
Proof.
  induction t as [x|f a IH] using term_ind'; simpl; auto.
  f_equal. rewrite map_map. apply map_ext_in. rewrite Forall_forall in IH. auto.
Qed.

Lemma eval_sort S dist M v t : model_ok S dist M -> respects S M v -> wf S t -> isort M (tsort S t) (eval M v t).
Proof.
  intros HM Hv. induction t as [x|f a IH] using term_ind'; intros W; simpl.
  - apply Hv.
  - apply wf_fun in W. destruct W as [W1 W2]. apply (mo_fun _ _ _ HM). rewrite <- W2.
    clear W2. induction a as [|b a IHa]; simpl; constructor.
    + inversion IH; inversion W1; subst; auto.
    + inversion IH; inversion W1; subst; apply IHa; auto.
Qed.

Lemma respects_subst S dist M v s : model_ok S dist M -> respects S M v -> wfsubst S s ->
  respects S M (fun x => eval M v (s x)).
Proof.
  intros HM Hv Hs x. destruct (Hs x) as [A B]. rewrite <- A. apply (eval_sort S dist); auto.
Qed.

Lemma lit_holds_app M v s p l r : lit_holds M v p (app s l) (app s r) <-> lit_holds M (fun x => eval M v (s x)) p l r.
Proof. unfold lit_holds. rewrite !eval_app. reflexivity. Qed.

Lemma lit_holds_swap M v p l r : lit_holds M v p l r <-> lit_holds M v p r l.
Proof. unfold lit_holds. destruct p; split; intros; congruence. Qed.

Lemma lit_holds_dec S dist M v p l r : model_ok S dist M -> lit_holds M v p l r \/ ~ lit_holds M v p l r.
Proof.
  intros HM. unfold lit_holds. destruct (mo_dec _ _ _ HM (eval M v l) (eval M v r)); destruct p; tauto.
Qed.
