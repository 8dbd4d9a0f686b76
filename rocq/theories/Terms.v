(** * First-order terms, sorts, substitutions (shared base of the model).

    Models the term data type of E's default (first-order) build:
    TERMS/cte_termtypes.h:230-290 (TermCell): a variable is a cell with
    negative f_code, a function term a cell with positive f_code and an
    argument array.  Simplification: terms are values, not shared cells
    (the sharing layer is modelled in TermBank.v); the fields weight, v_count,
    f_count are functions of the term. *)
From Coq Require Export List Arith ZArith Lia Bool.
From Coq Require Import ZifyBool.
Export ListNotations.
Global Arguments Z.add : simpl never.
Global Arguments Z.sub : simpl never.
Global Arguments Z.mul : simpl never.

Definition var := nat.   (* cte_termtypes.h: f_code < 0 together with its type *)
Definition sym := nat.   (* FunCode > 0, TERMS/cte_functypes.h *)
Definition sort := nat.  (* Type_p; types are shared, compared by pointer *)

(** cte_termtypes.h:230-290 TermCell *)
Inductive term : Type :=
| Var (x : var)
| Fun (f : sym) (args : list term).

(** Sort assignment: term->type.  A function symbol carries its declared result
    sort and argument sorts (TERMS/cte_signature.h FuncCell.type). *)
Record sorting := { vsort : var -> sort; fres : sym -> sort; fargs : sym -> list sort }.

(** term->type *)
Definition tsort (S : sorting) (t : term) : sort :=
  match t with Var x => vsort S x | Fun f _ => fres S f end.

(** Well-formed (fixed arity, well-sorted) terms: what TBInsert/the parser guarantee
    (TERMS/cte_typecheck.c TypeInferSort). *)
Fixpoint wfb (S : sorting) (t : term) : bool :=
  match t with
  | Var _ => true
  | Fun f args =>
      (fix go (l : list term) (ss : list sort) {struct l} : bool :=
         match l, ss with
         | [], [] => true
         | a :: l', s :: ss' => Nat.eqb (tsort S a) s && wfb S a && go l' ss'
         | _, _ => false
         end) args (fargs S f)
  end.

(** Syntactic equality; in E pointer equality of shared terms (see TermBank.v). *)
Fixpoint term_eqb (s t : term) : bool :=
  match s, t with
  | Var x, Var y => Nat.eqb x y
  | Fun f a, Fun g b =>
      Nat.eqb f g &&
      (fix go (l m : list term) {struct l} : bool :=
         match l, m with
         | [], [] => true
         | x :: l', y :: m' => term_eqb x y && go l' m'
         | _, _ => false
         end) a b
  | _, _ => false
  end.

(** Variables occurring in a term, with repetitions, left to right. *)
Fixpoint vars (t : term) : list var :=
  match t with
  | Var x => [x]
  | Fun _ args => flat_map vars args
  end.

(** Substitutions as total functions; [app] is simultaneous replacement. *)
Definition subst := var -> term.
Fixpoint app (s : subst) (t : term) : term :=
  match t with
  | Var x => s x
  | Fun f args => Fun f (map (app s) args)
  end.

(** Number of nodes. *)
Fixpoint size (t : term) : nat :=
  match t with
  | Var _ => 1
  | Fun _ args => S (fold_right (fun a n => size a + n) 0 args)
  end.

(** TermStandardWeight with DEFAULT_VWEIGHT=1 and DEFAULT_FWEIGHT=2,
    TERMS/cte_termfunc.h:107-110, TERMS/cte_termtypes.h:41-42. *)
Fixpoint stdweight (t : term) : Z :=
  match t with
  | Var _ => 1
  | Fun _ args => 2 + fold_right (fun a n => stdweight a + n) 0 args
  end%Z.

(** All subterms, including the term itself. *)
Fixpoint subterms (t : term) : list term :=
  t :: match t with Var _ => [] | Fun _ args => flat_map subterms args end.

Definition isVar (t : term) : bool := match t with Var _ => true | _ => false end.

(** ** Basic facts *)

Section TermInd.
  Variable P : term -> Prop.
  Hypothesis HV : forall x, P (Var x).
  Hypothesis HF : forall f args, Forall P args -> P (Fun f args).
  Fixpoint term_ind' (t : term) : P t :=
    match t with
    | Var x => HV x
    | Fun f args =>
        HF f args ((fix go (l : list term) : Forall P l :=
                      match l with
                      | [] => Forall_nil P
                      | a :: l' => Forall_cons a (term_ind' a) (go l')
                      end) args)
    end.
End TermInd.

Definition term_eqb_list := fix go (l m : list term) {struct l} : bool :=
         match l, m with
         | [], [] => true
         | x :: l', y :: m' => term_eqb x y && go l' m'
         | _, _ => false
         end.

Lemma term_eqb_fun f a g b : term_eqb (Fun f a) (Fun g b) = Nat.eqb f g && term_eqb_list a b.
Proof. reflexivity. Qed.

Lemma term_eqb_eq : forall s t, term_eqb s t = true <-> s = t.
Proof.
  induction s as [x|f a IH] using term_ind'; intros [y|g b].
  - simpl. rewrite Nat.eqb_eq. split; congruence.
  - simpl. split; discriminate.
  - simpl. split; discriminate.
  - rewrite term_eqb_fun, andb_true_iff, Nat.eqb_eq.
    assert (H : term_eqb_list a b = true <-> a = b).
    { revert b. induction IH as [|x l Hx _ IHl]; intros [|y m]; simpl; try (split; congruence).
      rewrite andb_true_iff, Hx, IHl. split; [intros [-> ->]; auto | intros H; inversion H; auto]. }
    rewrite H. split; [intros [-> ->]; auto | intros E; inversion E; auto].
Qed.

Lemma term_eqb_refl t : term_eqb t t = true.
Proof. apply term_eqb_eq; reflexivity. Qed.

Lemma term_eqb_neq s t : term_eqb s t = false <-> s <> t.
Proof. rewrite <- not_true_iff_false, term_eqb_eq. reflexivity. Qed.

Lemma term_eqb_spec s t : reflect (s = t) (term_eqb s t).
Proof. apply iff_reflect. symmetry. apply term_eqb_eq. Qed.

Definition term_eq_dec (s t : term) : {s = t} + {s <> t}.
Proof. destruct (term_eqb s t) eqn:E; [left; apply term_eqb_eq | right; apply term_eqb_neq]; exact E. Defined.

(** Relational well-formedness. *)
Definition wf_list (S : sorting) := fix go (l : list term) (ss : list sort) {struct l} : bool :=
         match l, ss with
         | [], [] => true
         | a :: l', s :: ss' => Nat.eqb (tsort S a) s && wfb S a && go l' ss'
         | _, _ => false
         end.
Lemma wfb_fun S f args : wfb S (Fun f args) = wf_list S args (fargs S f).
Proof. reflexivity. Qed.

Definition wf (S : sorting) (t : term) : Prop := wfb S t = true.

Lemma wf_list_spec S : forall l ss,
  wf_list S l ss = true <-> (Forall (wf S) l /\ map (tsort S) l = ss).
Proof.
  induction l as [|a l IH]; intros [|s ss]; simpl.
  - split; auto.
  - split; [discriminate|]. intros [_ H]; discriminate.
  - split; [discriminate|]. intros [_ H]; discriminate.
  - rewrite !andb_true_iff, IH, Nat.eqb_eq. split.
    + intros [[H1 H2] [H3 H4]]. split; [constructor; auto|]. congruence.
    + intros [H1 H2]. inversion H1; inversion H2; subst. auto.
Qed.

Lemma wf_fun S f args :
  wf S (Fun f args) <-> Forall (wf S) args /\ map (tsort S) args = fargs S f.
Proof. unfold wf at 1. rewrite wfb_fun. apply wf_list_spec. Qed.

Lemma wf_fun_length S f a b : wf S (Fun f a) -> wf S (Fun f b) -> length a = length b.
Proof.
  rewrite !wf_fun. intros [_ H1] [_ H2].
  rewrite <- (map_length (tsort S) a), <- (map_length (tsort S) b). congruence.
Qed.

(** Substitutions that respect sorts and produce well-formed terms. *)
Definition wfsubst (S : sorting) (s : subst) : Prop :=
  forall x, tsort S (s x) = vsort S x /\ wf S (s x).

Lemma app_sort S s t : wfsubst S s -> tsort S (app s t) = tsort S t.
Proof. intros H. destruct t as [x|f a]; simpl; [apply H | reflexivity]. Qed.

Lemma app_wf S s t : wfsubst S s -> wf S t -> wf S (app s t).
Proof.
  intros H. induction t as [x|f a IH] using term_ind'; intros W; simpl.
  - apply H.
  - apply wf_fun in W. destruct W as [W1 W2]. apply wf_fun. split.
    + rewrite Forall_map. rewrite Forall_forall in *. intros y Hy. apply IH; auto.
    + rewrite map_map. rewrite <- W2. apply map_ext. intros y. apply app_sort; auto.
Qed.

Lemma app_ext s1 s2 t : (forall x, In x (vars t) -> s1 x = s2 x) -> app s1 t = app s2 t.
Proof.
  induction t as [x|f a IH] using term_ind'; intros H; simpl.
  - apply H. left; reflexivity.
  - f_equal. apply map_ext_in. intros y Hy. rewrite Forall_forall in IH. apply IH; auto.
    intros x Hx. apply H. simpl. apply in_flat_map. eauto.
Qed.

Lemma app_ext_all s1 s2 t : (forall x, s1 x = s2 x) -> app s1 t = app s2 t.
Proof. intros H. apply app_ext. auto. Qed.

Lemma app_var t : app Var t = t.
Proof.
  induction t as [x|f a IH] using term_ind'; simpl; auto.
  f_equal. rewrite <- (map_id a) at 2. apply map_ext_in. rewrite Forall_forall in IH. auto.
Qed.

Definition comp (s2 s1 : subst) : subst := fun x => app s2 (s1 x).

Lemma app_comp s2 s1 t : app (comp s2 s1) t = app s2 (app s1 t).
Proof.
  induction t as [x|f a IH] using term_ind'; simpl; auto.
  f_equal. rewrite map_map. apply map_ext_in. rewrite Forall_forall in IH. auto.
Qed.

Lemma app_eq_on_vars s1 s2 t : app s1 t = app s2 t -> forall x, In x (vars t) -> s1 x = s2 x.
Proof.
  induction t as [y|f a IH] using term_ind'; simpl; intros H x Hx.
  - destruct Hx as [->|[]]; auto.
  - injection H as H. apply in_flat_map in Hx. destruct Hx as [u [Hu Hx]].
    rewrite Forall_forall in IH. apply (IH u Hu); auto.
    revert H Hu. clear. induction a as [|b a IHa]; simpl; [tauto|].
    intros H [->|Hu]; injection H; auto.
Qed.

Lemma vars_app s t : forall x, In x (vars (app s t)) <-> exists y, In y (vars t) /\ In x (vars (s y)).
Proof.
  induction t as [y|f a IH] using term_ind'; intros x; simpl.
  - split; [intros H; exists y; auto | intros [z [[->|[]] H]]; auto].
  - rewrite in_flat_map. split.
    + intros [u [Hu Hx]]. apply in_map_iff in Hu. destruct Hu as [v [<- Hv]].
      rewrite Forall_forall in IH. apply (IH v Hv) in Hx. destruct Hx as [z [Hz Hx]].
      exists z; split; auto. apply in_flat_map; eauto.
    + intros [z [Hz Hx]]. apply in_flat_map in Hz. destruct Hz as [v [Hv Hz]].
      exists (app s v). split; [apply in_map; auto|]. rewrite Forall_forall in IH. apply IH; eauto.
Qed.

Lemma size_pos t : 1 <= size t.
Proof. destruct t; simpl; lia. Qed.

Lemma size_arg f args a : In a args -> size a < size (Fun f args).
Proof.
  simpl. induction args as [|b l IH]; simpl; [tauto|].
  intros [->|H]; [lia | apply IH in H; lia].
Qed.

Lemma stdweight_pos t : (1 <= stdweight t)%Z.
Proof.
  induction t as [x|f a IH] using term_ind'; cbn [stdweight]; [lia|].
  assert (0 <= fold_right (fun a n => stdweight a + n) 0 a)%Z; [|lia].
  induction IH; simpl; lia.
Qed.

Lemma app_size_ge s t : size t <= size (app s t).
Proof.
  induction t as [x|f a IH] using term_ind'; simpl; [apply size_pos|].
  apply le_n_S. induction IH; simpl; lia.
Qed.

Lemma app_stdweight_ge s t : (stdweight t <= stdweight (app s t))%Z.
Proof.
  induction t as [x|f a IH] using term_ind'; simpl; [apply stdweight_pos|].
  assert (H : (fold_right (fun a n => stdweight a + n) 0 a
          <= fold_right (fun a n => stdweight a + n) 0 (map (app s) a))%Z)
    by (induction IH; simpl; lia).
  lia.
Qed.

(** A variable occurring in a term: its image is no bigger than the instance. *)
Lemma size_var_app s t x : In x (vars t) -> size (s x) <= size (app s t).
Proof.
  induction t as [y|f a IH] using term_ind'; simpl.
  - intros [->|[]]; lia.
  - intros H. apply in_flat_map in H. destruct H as [u [Hu Hx]].
    rewrite Forall_forall in IH. specialize (IH u Hu Hx).
    assert (size (app s u) < size (Fun f (map (app s) a))) by (apply size_arg, in_map; auto).
    simpl in *. lia.
Qed.

Lemma subterm_refl t : In t (subterms t).
Proof. destruct t; simpl; auto. Qed.

Lemma subterms_fun f args u : In u (subterms (Fun f args)) <-> u = Fun f args \/ exists a, In a args /\ In u (subterms a).
Proof.
  simpl. rewrite in_flat_map. split; intros [H|H]; auto.
Qed.

Lemma subterm_trans : forall t u v, In u (subterms t) -> In v (subterms u) -> In v (subterms t).
Proof.
  induction t as [x|f a IH] using term_ind'; intros u v Hu Hv.
  - destruct Hu as [<-|[]]; auto.
  - apply subterms_fun in Hu. destruct Hu as [->|[b [Hb Hu]]]; auto.
    apply subterms_fun. right. exists b. split; auto. rewrite Forall_forall in IH. eapply IH; eauto.
Qed.

Lemma subterm_size t u : In u (subterms t) -> size u <= size t.
Proof.
  induction t as [x|f a IH] using term_ind'; intros Hu.
  - destruct Hu as [<-|[]]; auto.
  - apply subterms_fun in Hu. destruct Hu as [->|[b [Hb Hu]]]; auto.
    rewrite Forall_forall in IH. pose proof (IH b Hb Hu). pose proof (size_arg f a b Hb). lia.
Qed.

Lemma in_vars_subterm t x : In x (vars t) <-> In (Var x) (subterms t).
Proof.
  induction t as [y|f a IH] using term_ind'.
  - simpl. split; intros [H|[]]; left; congruence.
  - rewrite subterms_fun. simpl. rewrite in_flat_map. split.
    + intros [u [Hu Hx]]. right. exists u; split; auto. rewrite Forall_forall in IH. apply IH; auto.
    + intros [H|[u [Hu Hx]]]; [discriminate|]. exists u; split; auto. rewrite Forall_forall in IH. apply IH; auto.
Qed.

Lemma app_subterm s t u : In u (subterms t) -> In (app s u) (subterms (app s t)).
Proof.
  induction t as [x|f a IH] using term_ind'; intros Hu.
  - destruct Hu as [<-|[]]. apply subterm_refl.
  - apply subterms_fun in Hu. destruct Hu as [->|[b [Hb Hu]]]; [apply subterm_refl|].
    simpl app. apply subterms_fun. right. exists (app s b). split; [apply in_map; auto|].
    rewrite Forall_forall in IH; auto.
Qed.
