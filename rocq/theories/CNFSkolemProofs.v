(** * Proofs about clausification: renaming of variables, Skolemisation, quantifier shifting. *)
From Coq Require Import Classical ClassicalEpsilon.
From Verif Require Import Terms Unify UnifyProofs Semantics Clauses ClausesProofs Split SplitProofs SplitSemProofs CNF CNFProofs CNFTermProofs.

Fixpoint bvars (f : form) : list var :=
  match f with
  | FLit _ _ _ | FAtom _ => []
  | FNot a => bvars a
  | FBin _ a b => bvars a ++ bvars b
  | FQ _ x a => x :: bvars a
  end.
Lemma nodup_app_iff {T} (l l' : list T) : NoDup (l ++ l') <-> NoDup l /\ NoDup l' /\ (forall x, In x l -> In x l' -> False).
Proof.
  induction l as [|a l IH]; cbn [List.app]; [split; [intros H; split; [constructor|]; split; [auto|intros x []]|tauto]|]. rewrite !NoDup_cons_iff, IH, in_app_iff. split.
  - intros [A [B [C D]]]. split; [split; auto|]. split; auto. intros x [<-|Hx] Hx'; eauto.
  - intros [[A B] [C D]]. split; [intros [X|X]; [auto|apply (D a); auto; left; auto]|]. split; auto. split; auto. intros x Hx. apply D. right; auto.
Qed.
Lemma bvars_all x f : In x (bvars f) -> In x (all_vars f).
Proof. induction f as [| | | |]; cbn [bvars all_vars In]; rewrite ?in_app_iff; tauto. Qed.

(** ** Copying with bindings of depth one *)
Definition sub (b : binding) : subst := fun x => match b x with Some t => t | None => Var x end.
Definition flat (b : binding) : Prop := forall x t, b x = Some t ->
  (forall y, In y (vars t) -> b y = None) /\ ((exists y, t = Var y) \/ (exists f us, t = Fun f (map Var us))).
Lemma vars_mapVar us x : In x (flat_map vars (map Var us)) <-> In x us.
Proof. induction us as [|u us IH]; cbn [map flat_map vars In]; [tauto|]. rewrite in_app_iff, IH. cbn. tauto. Qed.
Lemma flat_denotes b : flat b -> denotes b (sub b).
Proof.
  intros H x. destruct (b x) as [t|] eqn:Bx; [|unfold sub; rewrite Bx; auto]. destruct (H x t Bx) as [A _]. replace (sub b x) with t by (unfold sub; rewrite Bx; auto).
  rewrite <- (app_var t) at 1. apply app_ext. intros y Hy. unfold sub. rewrite (A y Hy). reflexivity.
Qed.
Lemma inst_var_unbound b y n : 1 <= n -> b y = None -> inst n b (Var y) = Some (Var (prim y)).
Proof. destruct n as [|n]; [lia|]. intros _ H. cbn [inst]. destruct n; cbn [deref]; rewrite H; reflexivity. Qed.
Lemma mapo_vars b us n : 1 <= n -> (forall y, In y us -> b y = None) -> exists l, mapo (inst n b) (map Var us) = Some l.
Proof.
  intros N H. apply mapo_total. intros a Ha. apply in_map_iff in Ha. destruct Ha as [y [<- Hy]]. rewrite inst_var_unbound; eauto.
Qed.
Lemma inst_S n b t : inst (S n) b t = match deref n b t with
    | None => None
    | Some (Var y) => Some (Var (prim y))
    | Some (Fun f args) => match mapo (inst n b) args with None => None | Some l => Some (Fun f l) end
    end.
Proof. reflexivity. Qed.
Lemma deref_fun n b f a : deref n b (Fun f a) = Some (Fun f a).
Proof. destruct n; reflexivity. Qed.
Lemma deref_unb n b y : b y = None -> deref n b (Var y) = Some (Var y).
Proof. intros H. destruct n; cbn [deref]; rewrite H; reflexivity. Qed.
Lemma inst_flat_total b : flat b -> forall t n, 3 + size t <= n -> exists u, inst n b t = Some u.
Proof.
  intros H. induction t as [x|f a IH] using term_ind'; intros n N; (destruct n as [|n]; [lia|]); rewrite inst_S.
  - destruct n as [|n]; [cbn in N; lia|]. cbn [deref]. destruct (b x) as [t|] eqn:Bx; [|eauto]. destruct (H x t Bx) as [A [[y ->]|[g [us ->]]]].
    + rewrite deref_unb; [eauto|]. apply A; left; auto.
    + rewrite deref_fun. destruct (mapo_vars b us (S n) ltac:(lia)) as [l L]; [intros y Hy; apply A; cbn [vars]; apply vars_mapVar; auto|]. rewrite L. eauto.
  - rewrite deref_fun.
    destruct (mapo_total (inst n b) a) as [l L]; [|rewrite L; eauto]. intros y Hy. rewrite Forall_forall in IH. apply IH; auto. pose proof (size_arg f a y Hy). lia.
Qed.
Lemma copy_flat b t : flat b -> (forall y, In y (vars t) -> primary (sub b y)) -> copy_term b t = Some (app (sub b) t).
Proof.
  intros H P. unfold copy_term. destruct (inst_flat_total b H t (4 + size t) ltac:(lia)) as [u U]. rewrite U. f_equal.
  rewrite (inst_correct b (sub b) (flat_denotes b H) _ _ _ U). apply ren_id. intros x Hx. apply vars_app in Hx. destruct Hx as [y [A B]]. exact (P y A x B).
Qed.

Lemma tsyms_app s t g : In g (tsyms (app s t)) -> In g (tsyms t) \/ exists x, In x (vars t) /\ In g (tsyms (s x)).
Proof.
  induction t as [x|f a IH] using term_ind'; cbn [app tsyms vars].
  - intros H. right. exists x. split; [left|]; auto.
  - intros [H|H]; [left; left; auto|]. apply in_flat_map in H. destruct H as [u [Hu Hg]]. apply in_map_iff in Hu. destruct Hu as [w [<- Hw]].
    rewrite Forall_forall in IH. destruct (IH w Hw Hg) as [X|[x [X Y]]]; [left; right; apply in_flat_map; eauto|right; exists x; split; auto; apply in_flat_map; eauto].
Qed.

(* only the sorts of the variables of the term matter *)
Lemma app_sort_in S s t : (forall x, In x (vars t) -> tsort S (s x) = vsort S x) -> tsort S (app s t) = tsort S t.
Proof. destruct t as [x|f a]; cbn; auto. Qed.
Lemma app_wf_in S s t : (forall x, In x (vars t) -> tsort S (s x) = vsort S x /\ wf S (s x)) -> wf S t -> wf S (app s t).
Proof.
  induction t as [x|f a IH] using term_ind'; intros H W.
  - apply H. left; auto.
  - apply wf_fun in W. destruct W as [W1 W2]. apply wf_fun. rewrite Forall_forall in *. split.
    + intros u Hu. apply in_map_iff in Hu. destruct Hu as [w [<- Hw]]. apply IH; auto. intros x Hx. apply H. cbn. apply in_flat_map; eauto.
    + rewrite <- W2, map_map. apply map_ext_in. intros w Hw. apply app_sort_in. intros x Hx. apply H. cbn. apply in_flat_map; eauto.
Qed.

(** ** Renaming *)
Section Rename.
  Variable E : env.
  Hypothesis HE : env_ok E.
  Notation S := (srt E).
  Notation vs := (vsort (srt E)).
  Definition isnew (c0 c : counters) (y : var) : Prop := exists k, c0 (vs y) <= k < c (vs y) /\ y = prim (fresh E (vs y) k).
  Definition rn_ok (c0 c : counters) (b : binding) : Prop := forall z t, b z = Some t ->
    exists y, t = Var y /\ isnew c0 c y /\ vs y = vs z /\ old_var E c0 z.
  Lemma new_var_sort x k : vs (prim (fresh E (vs x) k)) = vs x.
  Proof. rewrite (eo_prim E HE). apply (eo_fresh_sort E HE). Qed.
  Lemma isnew_old c0 c y z : isnew c0 c y -> old_var E c0 z -> y <> z.
  Proof. intros [k [[A B] C]] O <-. exact (O k A C). Qed.
  Lemma isnew_mono c0 c1 c c' y : isnew c0 c y -> (forall s, c1 s <= c0 s) -> (forall s, c s <= c' s) -> isnew c1 c' y.
  Proof. intros [k [A B]] C D. exists k. specialize (C (vs y)). specialize (D (vs y)). split; auto. lia. Qed.
  Lemma isnew_disj c0 c1 c2 c3 y z : isnew c0 c1 y -> isnew c2 c3 z -> (forall s, c1 s <= c2 s) -> y <> z.
  Proof.
    intros [k [A B]] [k' [A' B']] L <-. rewrite B in B' at 1. assert (k = k').
    { apply (eo_fresh_inj E HE (vs y)). apply prim_fresh_inj; auto; apply (eo_fresh_cell E HE). }
    subst. specialize (L (vs y)). lia.
  Qed.
  Lemma isnew_primary c c' y : isnew c c' y -> is_fresh y = false.
  Proof. intros [k [_ ->]]. apply prim_even. Qed.
  Lemma new_isnew c x : isnew c (bump c (vs x)) (new_var E c (vs x)).
  Proof. exists (c (vs x)). unfold new_var. rewrite new_var_sort. unfold bump. rewrite Nat.eqb_refl. split; auto. Qed.
  Lemma bump_le c s : forall s', c s' <= bump c s s'.
  Proof. intros s'. unfold bump. destruct (Nat.eqb s s'); lia. Qed.
  Lemma isnew_old_at c c' y : isnew c c' y -> old_var E c' y.
  Proof.
    intros [k [A B]] k' Hk X. rewrite B in X at 1. assert (k = k').
    { apply (eo_fresh_inj E HE (vs y)). apply prim_fresh_inj; auto; apply (eo_fresh_cell E HE). }
    lia.
  Qed.
  Lemma old_mono c c' x : (forall s, c s <= c' s) -> old_var E c x -> old_var E c' x.
  Proof. intros L H k Hk. apply H. specialize (L (vs x)). lia. Qed.

  Lemma rn_flat c0 c b : rn_ok c0 c b -> flat b.
  Proof.
    intros H x t Hx. destruct (H x t Hx) as [y [-> [A [B C]]]]. split; [|left; eauto]. intros z [<-|[]]. destruct (b y) as [u|] eqn:By; auto.
    destruct (H y u By) as [_ [_ [_ [_ O]]]]. exfalso. exact (isnew_old c0 c y y A O eq_refl).
  Qed.
  Lemma rn_copy c0 c b t : rn_ok c0 c b -> primary t -> wf S t ->
    copy_term b t = Some (app (sub b) t) /\ wf S (app (sub b) t) /\ tsort S (app (sub b) t) = tsort S t /\ primary (app (sub b) t) /\ tsyms (app (sub b) t) = tsyms t /\
    (forall x, In x (vars (app (sub b) t)) -> exists z, In z (vars t) /\ sub b z = Var x).
  Proof.
    intros H P W. assert (V : forall y, exists z, sub b y = Var z /\ vs z = vs y /\ (is_fresh y = false -> is_fresh z = false)).
    { intros y. unfold sub. destruct (b y) as [u|] eqn:By; [|exists y; auto]. destruct (H y u By) as [z [-> [A [B C]]]]. exists z. split; auto. split; auto. intros _. eapply isnew_primary; eauto. }
    assert (WS : wfsubst S (sub b)) by (intros y; destruct (V y) as [z [-> [B _]]]; split; auto; reflexivity).
    split; [apply copy_flat; [eapply rn_flat; eauto|]|]. { intros y Hy. destruct (V y) as [z [-> [_ C]]]. intros w [<-|[]]. auto. }
    split; [apply app_wf; auto|]. split; [apply app_sort; auto|]. split; [|split].
    - intros x Hx. apply vars_app in Hx. destruct Hx as [y [A B]]. destruct (V y) as [z [X [_ C]]]. rewrite X in B. destruct B as [<-|[]]. auto.
    - clear - V. induction t as [x|f a IH] using term_ind'; cbn [app tsyms]; [destruct (V x) as [z [-> _]]; auto|]. f_equal. induction IH; cbn; congruence.
    - intros x Hx. apply vars_app in Hx. destruct Hx as [y [A B]]. exists y. split; auto. destruct (V y) as [z [X _]]. rewrite X in *. destruct B as [->|[]]. auto.
  Qed.

  Definition back (M : structure) (b : binding) (v : var -> dom M) : var -> dom M := fun z => eval M v (sub b z).
  Lemma rename_good c0 : forall f b c, rn_ok c0 c b -> (forall s, c0 s <= c s) -> (forall x, In x (all_vars f) -> old_var E c0 x) -> form_ok E f ->
    exists f' c', rename E b c f = Some (f', c') /\ (forall s, c s <= c' s) /\ form_ok E f' /\ form_syms f' = form_syms f /\ NoDup (bvars f') /\
      (forall y, In y (bvars f') -> isnew c c' y) /\ (forall x, In x (free_vars f') -> exists z, In z (free_vars f) /\ sub b z = Var x) /\ (is_nnf f -> is_nnf f') /\
      forall M v, sem S M v f' <-> sem S M (back M b v) f.
  Proof.
    induction f as [p l r|t|a IH|o a IHa a2 IHb|q x a IH]; intros b c RN LE OLD OK; cbn [rename].
    - destruct OK as [Wl [Wr [Es [Pl Pr]]]]. destruct (rn_copy c0 c b l RN Pl Wl) as [-> [A1 [A2 [A3 [A4 A5]]]]]. destruct (rn_copy c0 c b r RN Pr Wr) as [-> [B1 [B2 [B3 [B4 B5]]]]].
      do 2 eexists. split; [reflexivity|]. split; auto. split; [cbn; repeat split; auto; congruence|]. split; [cbn; congruence|]. split; [constructor|]. split; [intros y []|]. split.
      + cbn. intros y Hy. apply in_app_or in Hy. destruct Hy as [Hy|Hy]; [destruct (A5 y Hy) as [z [X Y]]|destruct (B5 y Hy) as [z [X Y]]]; exists z; split; auto; apply in_or_app; auto.
      + split; auto. intros M v. cbn [sem]. unfold lit_holds. rewrite !eval_app. reflexivity.
    - destruct OK as [Wt [Es Pt]]. destruct (rn_copy c0 c b t RN Pt Wt) as [-> [A1 [A2 [A3 [A4 A5]]]]].
      do 2 eexists. split; [reflexivity|]. split; auto. split; [cbn; repeat split; auto; congruence|]. split; [cbn; congruence|]. split; [constructor|]. split; [intros y []|]. split; [exact A5|].
      split; auto. intros M v. cbn [sem]. rewrite !eval_app. reflexivity.
    - destruct (IH b c RN LE OLD OK) as [f' [c' [-> [A1 [A2 [A3 [A4 [A5 [A6 [A7 A8]]]]]]]]]]. do 2 eexists. split; [reflexivity|]. do 7 (split; [auto; fail|]).
      intros M v. cbn [sem]. rewrite A8. tauto.
    - destruct OK as [OKa OKb]. cbn [all_vars] in OLD.
      destruct (IHa b c RN LE (fun x Hx => OLD x (in_or_app _ _ _ (or_introl Hx))) OKa) as [f1 [c1 [-> [A1 [A2 [A3 [A4 [A5 [A6 [A7 A8]]]]]]]]]].
      destruct (IHb b c1) as [f2 [c2 [-> [B1 [B2 [B3 [B4 [B5 [B6 [B7 B8]]]]]]]]]]; auto.
      { intros z t Hz. destruct (RN z t Hz) as [y [X [Y Z]]]. exists y. split; auto. split; auto. eapply isnew_mono; eauto. }
      { intros s. specialize (LE s). specialize (A1 s). lia. }
      { intros x Hx. apply OLD, in_or_app; auto. }
      do 2 eexists. split; [reflexivity|]. split; [intros s; specialize (A1 s); specialize (B1 s); lia|]. split; [split; auto|]. split; [cbn; congruence|]. split.
      + cbn [bvars]. apply nodup_app_iff. split; auto. split; auto. intros y Hy Hy'. exact (isnew_disj c c1 c1 c2 y y (A5 y Hy) (B5 y Hy') (fun s => le_n _) eq_refl).
      + split; [|split; [|split]].
        * cbn [bvars]. intros y Hy. apply in_app_or in Hy. destruct Hy as [Hy|Hy]; [eapply isnew_mono; [apply A5; auto|auto|auto]|eapply isnew_mono; [apply B5; auto|auto|auto]].
        * cbn [free_vars]. intros y Hy. apply in_app_or in Hy. destruct Hy as [Hy|Hy]; [destruct (A6 y Hy) as [z [X Y]]|destruct (B6 y Hy) as [z [X Y]]]; exists z; split; auto; apply in_or_app; auto.
        * destruct o; cbn; tauto.
        * intros M v. cbn [sem]. apply op_sem_iff; auto.
    - destruct OK as [Px OKa]. set (y := new_var E c (vs x)). set (b' := upd b x (Some (Var y))). pose proof (new_isnew c x) as NY. fold y in NY.
      assert (SY : vs y = vs x) by apply new_var_sort. pose proof (OLD x (or_introl eq_refl)) as OX.
      destruct (IH b' (bump c (vs x))) as [f' [c' [-> [A1 [A2 [A3 [A4 [A5 [A6 [A7 A8]]]]]]]]]]; auto.
      { intros z t Hz. unfold b', upd in Hz. destruct (Nat.eqb_spec x z) as [<-|N].
        - injection Hz as <-. exists y. split; auto. split; [|auto]. eapply isnew_mono; [exact NY|auto|auto].
        - destruct (RN z t Hz) as [w [X [Y Z]]]. exists w. split; auto. split; auto. eapply isnew_mono; [exact Y|auto|apply bump_le]. }
      { intros s. specialize (LE s). pose proof (bump_le c (vs x) s). lia. }
      { intros z Hz. apply OLD. right; auto. }
      do 2 eexists. split; [reflexivity|]. split; [intros s; specialize (A1 s); pose proof (bump_le c (vs x) s); lia|].
      split; [split; auto; eapply isnew_primary; eauto|]. split; [exact A3|]. split.
      + cbn [bvars]. constructor; auto. intros Hy. exact (isnew_disj _ _ _ _ y y NY (A5 y Hy) (fun s => le_n _) eq_refl).
      + split; [|split; [|split]].
        * intros z [<-|Hz]; [eapply isnew_mono; [exact NY|auto|auto]|]. eapply isnew_mono; [apply A5; auto|apply bump_le|auto].
        * cbn [free_vars]. intros z Hz. apply filter_In in Hz. destruct Hz as [Hz Nz]. apply negb_true_iff, Nat.eqb_neq in Nz. destruct (A6 z Hz) as [w [Hw Ew]].
          unfold sub, b', upd in Ew. destruct (Nat.eqb_spec x w) as [<-|Nw]; [injection Ew as Ew; contradiction|]. exists w. split; [|exact Ew]. apply filter_In. split; auto. apply negb_true_iff, Nat.eqb_neq; auto.
        * exact A7.
        * intros M v. cbn [sem]. rewrite SY.
          assert (K : forall d, sem S M (vset v y d) f' <-> sem S M (vset (back M b v) x d) a).
          { intros d. rewrite A8. apply sem_ext. intros z Hz. unfold back. unfold sub at 1, b', upd. destruct (Nat.eqb_spec x z) as [<-|N].
            - rewrite vset_same. cbn. apply vset_same.
            - rewrite vset_other by auto. fold (sub b z). assert (V : exists w, sub b z = Var w /\ y <> w).
              { unfold sub. destruct (b z) as [u|] eqn:Bz.
                - destruct (RN z u Bz) as [w [-> [X _]]]. exists w. split; auto. intros ->. exact (isnew_disj _ _ _ _ w w X NY (fun s => le_n _) eq_refl).
                - exists z. split; auto. apply (isnew_old c (bump c (vs x))); auto. apply (old_mono c0); auto. apply OLD. right. apply free_all; auto. }
              destruct V as [w [-> NW]]. cbn [eval]. rewrite vset_other; auto. }
          destruct q; split; [intros X d Hd; apply K; auto|intros X d Hd; apply K; auto|intros [d [Hd X]]; exists d; split; auto; apply K; auto..].
  Qed.
End Rename.

(** ** Skolemisation *)
Record grows (E : env) (n : sym) (E' : env) (n' : sym) : Prop := {
  gr_le : n <= n';
  gr_vsort : forall x, vsort (srt E') x = vsort (srt E) x;
  gr_fres : forall f, f < n -> fres (srt E') f = fres (srt E) f;
  gr_fargs : forall f, f < n -> fargs (srt E') f = fargs (srt E) f;
  gr_dist : dist E' = dist E;
  gr_fresh : fresh E' = fresh E;
  gr_ok : env_ok E -> 2 < n -> env_ok E' }.
Lemma grows_refl E n : grows E n E n.
Proof. constructor; auto. Qed.
Lemma grows_trans E1 n1 E2 n2 E3 n3 : grows E1 n1 E2 n2 -> grows E2 n2 E3 n3 -> grows E1 n1 E3 n3.
Proof.
  intros [A1 A2 A3 A4 A5 A6 A7] [B1 B2 B3 B4 B5 B6 B7]. constructor; [lia| | | |congruence|congruence|].
  - intros x. rewrite B2. auto.
  - intros f Hf. rewrite B3 by lia. auto.
  - intros f Hf. rewrite B4 by lia. auto.
  - intros X Y. apply B7; auto. lia.
Qed.
Lemma grows_declare E n args res : grows E n (declare E n args res) (S n).
Proof.
  assert (X : forall f, f < n -> Nat.eqb f n = false) by (intros f Hf; apply Nat.eqb_neq; lia).
  constructor; cbn; auto.
  - intros f Hf. rewrite X; auto.
  - intros f Hf. rewrite X; auto.
  - intros [A1 A2 A3 A4 A5 A6 A7] N. constructor; cbn [declare srt vsort fres fargs fresh]; auto.
    + rewrite X; auto. unfold true_code. lia.
    + rewrite X by (unfold false_code; lia); auto.
    + rewrite !X; auto; unfold true_code, false_code; lia.
Qed.
Lemma grows_next E n E' n' : grows E n E' n' -> next_ok E n -> next_ok E' n'.
Proof. intros G [A B]. pose proof (gr_le _ _ _ _ G). split; [lia|]. intros f Hf. rewrite (gr_dist _ _ _ _ G). apply B. lia. Qed.

Lemma grows_wf E n E' n' t : grows E n E' n' -> (forall f, In f (tsyms t) -> f < n) -> (wf (srt E') t <-> wf (srt E) t) /\ tsort (srt E') t = tsort (srt E) t.
Proof.
  intros G. induction t as [x|f a IH] using term_ind'; intros B; cbn [tsort].
  - split; [split; intros; reflexivity|apply (gr_vsort _ _ _ _ G)].
  - assert (Hf : f < n) by (apply B; left; auto). split; [|apply (gr_fres _ _ _ _ G); auto]. rewrite !wf_fun, (gr_fargs _ _ _ _ G) by auto.
    assert (K : forall u, In u a -> (wf (srt E') u <-> wf (srt E) u) /\ tsort (srt E') u = tsort (srt E) u).
    { intros u Hu. rewrite Forall_forall in IH. apply IH; auto. intros g Hg. apply B. right. apply in_flat_map; eauto. }
    assert (KM : map (tsort (srt E')) a = map (tsort (srt E)) a) by (apply map_ext_in; intros u Hu; apply K; auto).
    rewrite KM, !Forall_forall. split; intros [X Y]; (split; [|auto]); intros u Hu; apply (K u Hu); auto.
Qed.
Lemma grows_form E n E' n' f : grows E n E' n' -> env_ok E -> 2 < n -> (forall s, In s (form_syms f) -> s < n) -> form_ok E f -> form_ok E' f.
Proof.
  intros G HE N2. assert (T : fres (srt E') true_code = fres (srt E) true_code) by (apply (gr_fres _ _ _ _ G); unfold true_code; lia).
  induction f as [p l r|t|a IH|o a IHa b IHb|q x a IH]; cbn [form_ok form_syms]; intros B.
  - intros [A1 [A2 [A3 A4]]]. destruct (grows_wf E n E' n' l G) as [X1 X2]; [intros; apply B, in_or_app; auto|]. destruct (grows_wf E n E' n' r G) as [Y1 Y2]; [intros; apply B, in_or_app; auto|].
    rewrite X1, Y1, X2, Y2. auto.
  - intros [A1 [A2 A3]]. destruct (grows_wf E n E' n' t G B) as [X1 X2]. rewrite X1, X2, T. auto.
  - auto.
  - intros [X Y]. split; [apply IHa|apply IHb]; auto; intros; apply B, in_or_app; auto.
  - intros [X Y]; auto.
Qed.

Fixpoint univ (f : form) : Prop :=
  match f with
  | FLit _ _ _ => True
  | FBin (And | Or) a b => univ a /\ univ b
  | FQ true _ a => univ a
  | _ => False
  end.
Lemma univ_nnf f : univ f -> is_nnf f.
Proof. induction f as [| | |[]|[]]; cbn; tauto. Qed.

Lemma vcount_length f : vcount f = length (all_vars f).
Proof. induction f; cbn [vcount all_vars length]; rewrite ?app_length; lia. Qed.
Lemma vcount0 f : vcount f = 0 -> all_vars f = [].
Proof. rewrite vcount_length. apply length_zero_iff_nil. Qed.
Lemma nnf_univ f : is_nnf f -> bvars f = [] -> univ f.
Proof.
  induction f as [| | |o a IHa b IHb|]; cbn [is_nnf univ bvars]; auto; [|discriminate].
  intros H B. apply app_eq_nil in B. destruct B. destruct o; tauto.
Qed.

Definition sorted_in (E : env) (n n' : sym) (M : structure) : Prop :=
  forall f ds, n <= f < n' -> Forall2 (isort M) (fargs (srt E) f) ds -> isort M (fres (srt E) f) (ifun M f ds).

Record sk_ok (E : env) (n : sym) (b : binding) (U : list var) (f : form) : Prop := {
  sk_nnf : is_nnf f;
  sk_form : form_ok E f;
  sk_syms : forall s, In s (form_syms f) -> s < n;
  sk_nodup : NoDup (bvars f);
  sk_bv : forall x, In x (bvars f) -> ~ In x U /\ b x = None;
  sk_bind : forall z t, b z = Some t -> exists k us, t = Fun k (map Var us) /\ incl us U /\ k < n /\ wf (srt E) t /\ tsort (srt E) t = vsort (srt E) z /\ ~ In z U;
  sk_free : forall z, In z (free_vars f) -> b z <> None \/ In z U;
  sk_prim : forall x, In x U -> is_fresh x = false }.

Lemma sk_flat E n b U f : sk_ok E n b U f -> flat b.
Proof.
  intros H z t Hz. destruct (sk_bind _ _ _ _ _ H z t Hz) as [k [us [-> [A _]]]]. split; [|right; eauto]. intros y Hy. cbn [vars] in Hy. apply (proj1 (vars_mapVar _ _)), A in Hy.
  destruct (b y) as [u|] eqn:By; auto. destruct (sk_bind _ _ _ _ _ H y u By) as [_ [_ [_ [_ [_ [_ [_ X]]]]]]]. contradiction.
Qed.
Lemma sk_sub_vars E n b U f z x : sk_ok E n b U f -> In z (free_vars f) -> In x (vars (sub b z)) -> In x U.
Proof.
  intros H Hz Hx. unfold sub in Hx. destruct (b z) as [t|] eqn:Bz.
  - destruct (sk_bind _ _ _ _ _ H z t Bz) as [k [us [-> [A _]]]]. cbn [vars] in Hx. apply (proj1 (vars_mapVar _ _)) in Hx. apply A; auto.
  - destruct Hx as [<-|[]]. destruct (sk_free _ _ _ _ _ H z Hz); [congruence|auto].
Qed.
Lemma sk_copy E n b U f t : sk_ok E n b U f -> (forall x, In x (vars t) -> In x (free_vars f)) -> (forall g, In g (tsyms t) -> g < n) -> wf (srt E) t ->
  copy_term b t = Some (app (sub b) t) /\ wf (srt E) (app (sub b) t) /\ tsort (srt E) (app (sub b) t) = tsort (srt E) t /\ primary (app (sub b) t) /\
  (forall g, In g (tsyms (app (sub b) t)) -> g < n) /\ (forall x, In x (vars (app (sub b) t)) -> In x U).
Proof.
  intros H V SY W.
  assert (VU : forall x y, In y (vars t) -> In x (vars (sub b y)) -> In x U) by (intros x y Hy Hx; eapply sk_sub_vars; eauto).
  assert (WS : forall x, tsort (srt E) (sub b x) = vsort (srt E) x /\ wf (srt E) (sub b x)).
  { intros x. unfold sub. destruct (b x) as [u|] eqn:Bx; [|split; reflexivity]. destruct (sk_bind _ _ _ _ _ H x u Bx) as [k [us [-> [A [B [C [D _]]]]]]]. auto. }
  split; [apply copy_flat; [eapply sk_flat; eauto|]; intros y Hy x Hx; apply (sk_prim _ _ _ _ _ H); exact (VU x y Hy Hx)|].
  split; [apply app_wf_in; auto|]. split; [apply app_sort_in; intros; apply WS|].
  split; [|split].
  - intros x Hx. apply vars_app in Hx. destruct Hx as [y [A B]]. apply (sk_prim _ _ _ _ _ H). exact (VU x y A B).
  - intros g Hg. apply tsyms_app in Hg. destruct Hg as [Hg|[x [Hx Hg]]]; auto. unfold sub in Hg. destruct (b x) as [u|] eqn:Bx; [|destruct Hg].
    destruct (sk_bind _ _ _ _ _ H x u Bx) as [k [us [-> [A [B _]]]]]. destruct Hg as [<-|Hg]; auto.
    exfalso. apply in_flat_map in Hg. destruct Hg as [w [Hw Hg]]. apply in_map_iff in Hw. destruct Hw as [u [<- _]]. destruct Hg.
  - intros x Hx. apply vars_app in Hx. destruct Hx as [y [A B]]. eauto.
Qed.

Section AgreeSem.
  Variables (D : Type) (so : sort -> D -> Prop).
  Lemma agree_sem S n F F' f : agree D n F F' -> 2 < n -> (forall s, In s (form_syms f) -> s < n) -> forall v : var -> D, sem S (mk D so F) v f <-> sem S (mk D so F') v f.
  Proof.
    intros A N2. induction f as [p l r|t|a IH|o a IHa b IHb|q x a IH]; intros B v; cbn [sem form_syms] in *.
    - unfold lit_holds. pose proof (agree_eval D so n F F' v l A (fun g Hg => B g (in_or_app _ _ _ (or_introl Hg)))) as X.
      pose proof (agree_eval D so n F F' v r A (fun g Hg => B g (in_or_app _ _ _ (or_intror Hg)))) as Y. change (dom (mk D so F)) with D in *. change (dom (mk D so F')) with D in *.
      rewrite X, Y. tauto.
    - pose proof (agree_eval D so n F F' v t A B) as X. change (dom (mk D so F)) with D in *. change (dom (mk D so F')) with D in *. rewrite X. cbn [ifun mk].
      rewrite (A true_code []) by (unfold true_code; lia). tauto.
    - rewrite IH; tauto.
    - apply op_sem_iff; [apply IHa|apply IHb]; intros; apply B, in_or_app; auto.
    - destruct q; split.
      + intros K d Hd. apply IH; auto.
      + intros K d Hd. apply IH; auto.
      + intros [d [Hd K]]. exists d. split; auto. apply IH; auto.
      + intros [d [Hd K]]. exists d. split; auto. apply IH; auto.
  Qed.
End AgreeSem.

Definition sk_sound (E E' : env) (n n' : sym) (b : binding) (f f' : form) : Prop :=
  forall M, sorted_in E' n n' M -> forall v, respects (srt E) M v -> sem (srt E) M v f' -> sem (srt E) M (back M b v) f.
Definition sk_complete (E E' : env) (n n' : sym) (b : binding) (f f' : form) : Prop :=
  forall D so F, model_ok (srt E) (dist E) (mk D so F) -> exists F', agree D n F F' /\ model_ok (srt E') (dist E') (mk D so F') /\
    forall v : var -> D, respects (srt E) (mk D so F) v -> sem (srt E) (mk D so F) (back (mk D so F) b v) f -> sem (srt E) (mk D so F') v f'.

Lemma skolem_good : forall f E n b U, env_ok E -> next_ok E n -> sk_ok E n b U f ->
  exists f' E' n', skolem E n b U f = Some (f', E', n') /\ grows E n E' n' /\ univ f' /\ form_ok E' f' /\ (forall s, In s (form_syms f') -> s < n') /\
    NoDup (bvars f') /\ incl (bvars f') (bvars f) /\ incl (free_vars f') U /\ sk_sound E E' n n' b f f' /\ sk_complete E E' n n' b f f'.
Proof.
  assert (GR : forall f E n b U, env_ok E -> next_ok E n -> sk_ok E n b U f -> vcount f = 0 ->
    exists f' E' n', Some (f, E, n) = Some (f', E', n') /\ grows E n E' n' /\ univ f' /\ form_ok E' f' /\ (forall s, In s (form_syms f') -> s < n') /\
    NoDup (bvars f') /\ incl (bvars f') (bvars f) /\ incl (free_vars f') U /\ sk_sound E E' n n' b f f' /\ sk_complete E E' n n' b f f').
  { intros f E n b U HE HN K V. exists f, E, n. pose proof (vcount0 f V) as AV.
    assert (FV : free_vars f = []) by (destruct (free_vars f) as [|x l] eqn:Q; auto; assert (In x (all_vars f)) as X by (apply free_all; rewrite Q; left; auto); rewrite AV in X; destruct X).
    assert (BV : bvars f = []) by (destruct (bvars f) as [|x l] eqn:Q; auto; assert (In x (all_vars f)) as X by (apply bvars_all; rewrite Q; left; auto); rewrite AV in X; destruct X).
    destruct K as [K1 K2 K3 K4 K5 K6 K7 K8].
    split; auto. split; [apply grows_refl|]. split; [apply nnf_univ; auto|]. split; auto. split; auto. split; auto. split; [apply incl_refl|]. split; [rewrite FV; intros x []|]. split.
    - intros M _ v Hv. apply sem_ext. rewrite FV. intros x [].
    - intros D so F HM. exists F. split; [intros g ds Hg; auto|]. split; auto. intros v Hv. apply sem_ext. rewrite FV. intros x []. }
  induction f as [p l r|t|a IH|o a IHa a2 IHb|q x a IH]; intros E n b U HE HN K; cbn [skolem].
  - destruct (Nat.eqb_spec (vcount (FLit p l r)) 0) as [V|_]; [eapply GR; eauto|]. pose proof (sk_form _ _ _ _ _ K) as OK. pose proof (sk_syms _ _ _ _ _ K) as SY. cbn [form_ok form_syms] in OK, SY.
    destruct OK as [Wl [Wr [Es [Pl Pr]]]].
    destruct (sk_copy E n b U _ l K) as [-> [A1 [A2 [A3 [A4 A5]]]]]; auto; [intros; cbn; apply in_or_app; auto|intros; apply SY, in_or_app; auto|].
    destruct (sk_copy E n b U _ r K) as [-> [B1 [B2 [B3 [B4 B5]]]]]; auto; [intros; cbn; apply in_or_app; auto|intros; apply SY, in_or_app; auto|].
    do 3 eexists. split; [reflexivity|]. split; [apply grows_refl|]. split; [exact I|]. split; [cbn; repeat split; auto; congruence|].
    split; [intros g Hg; cbn in Hg; apply in_app_or in Hg; destruct Hg; auto|]. split; [constructor|]. split; [intros y []|]. split; [intros y Hy; cbn in Hy; apply in_app_or in Hy; destruct Hy; auto|]. split.
    + intros M _ v Hv. cbn [sem]. unfold lit_holds. rewrite !eval_app. auto.
    + intros D so F HM. exists F. split; [intros g ds Hg; auto|]. split; auto. intros v Hv. cbn [sem]. unfold lit_holds. rewrite !eval_app. auto.
  - destruct (sk_nnf _ _ _ _ _ K).
  - destruct (sk_nnf _ _ _ _ _ K).
  - destruct (Nat.eqb_spec (vcount (FBin o a a2)) 0) as [V|_]; [eapply GR; eauto|]. destruct K as [K1 K2 K3 K4 K5 K6 K7 K8]. cbn [form_ok form_syms bvars free_vars] in *.
    assert (O : (o = And \/ o = Or) /\ is_nnf a /\ is_nnf a2) by (destruct o; cbn in K1; tauto). destruct O as [O [Na Nb]]. destruct K2 as [Fa Fb].
    apply nodup_app_iff in K4. destruct K4 as [NDa [NDb DJ]].
    destruct (IHa E n b U HE HN) as [f1 [E1 [n1 [-> [G1 [U1 [F1 [S1 [D1 [I1 [V1 [SO1 CO1]]]]]]]]]]]].
    { constructor; auto; [intros; apply K3, in_or_app; auto|intros; apply K5, in_or_app; auto|intros; apply K7, in_or_app; auto]. }
    destruct HN as [N2 ND]. pose proof (gr_le _ _ _ _ G1) as L1. pose proof (gr_ok _ _ _ _ G1 HE N2) as HE1. pose proof (grows_next _ _ _ _ G1 (conj N2 ND)) as HN1.
    assert (SB : forall s, In s (form_syms a2) -> s < n) by (intros; apply K3, in_or_app; auto).
    destruct (IHb E1 n1 b U HE1 HN1) as [f2 [E2 [n2 [-> [G2 [U2 [F2 [S2 [D2 [I2 [V2 [SO2 CO2]]]]]]]]]]]].
    { constructor; auto.
      - eapply grows_form; eauto.
      - intros s Hs. specialize (SB s Hs). lia.
      - intros; apply K5, in_or_app; auto.
      - intros z t Hz. destruct (K6 z t Hz) as [k [us [-> [A [B [C [D F]]]]]]]. exists k, us. split; auto. split; auto. split; [lia|].
        assert (TS : forall g, In g (tsyms (Fun k (map Var us))) -> g < n).
        { intros g [<-|Hg]; auto. exfalso. apply in_flat_map in Hg. destruct Hg as [w [Hw Hg]]. apply in_map_iff in Hw. destruct Hw as [u [<- _]]. destruct Hg. }
        destruct (grows_wf E n E1 n1 _ G1 TS) as [X Y]. rewrite X, Y, (gr_vsort _ _ _ _ G1). auto.
      - intros; apply K7, in_or_app; auto. }
    pose proof (gr_le _ _ _ _ G2) as L2. destruct HN1 as [N12 ND1].
    do 3 eexists. split; [reflexivity|]. split; [eapply grows_trans; eauto|]. split; [destruct O as [-> | ->]; split; auto|].
    split; [split; auto; eapply grows_form; eauto|]. split; [intros s Hs; cbn [form_syms] in Hs; apply in_app_or in Hs; destruct Hs as [Hs|Hs]; auto; specialize (S1 s Hs); lia|].
    split; [cbn [bvars]; apply nodup_app_iff; split; auto; split; auto; intros y Hy Hy'; apply (DJ y); [apply I1|apply I2]; auto|].
    split; [cbn [bvars]; apply incl_app; [apply incl_appl|apply incl_appr]; auto|]. split; [cbn [free_vars]; apply incl_app; auto|]. split.
    + intros M SI v Hv. cbn [sem].
      assert (X1 : sem (srt E) M v f1 -> sem (srt E) M (back M b v) a).
      { apply SO1; auto. intros g ds Hg Hds. rewrite <- (gr_fres _ _ _ _ G2) by lia. apply SI; [lia|]. rewrite (gr_fargs _ _ _ _ G2) by lia. exact Hds. }
      assert (VE : forall y, vsort (srt E1) y = vsort (srt E) y) by apply (gr_vsort _ _ _ _ G1).
      assert (X2 : sem (srt E) M v f2 -> sem (srt E) M (back M b v) a2).
      { intros X. apply (sem_sorts (srt E1) (srt E) M a2 VE). apply (SO2 M); auto; [intros g ds Hg; apply SI; lia|intros y; rewrite VE; apply Hv|]. apply (sem_sorts (srt E1) (srt E) M f2 VE). exact X. }
      destruct O as [-> | ->]; cbn; tauto.
    + intros D so F HM. destruct (CO1 D so F HM) as [Fx [A1 [M1 C1]]]. destruct (CO2 D so Fx M1) as [Fy [A2 [M2 C2]]]. exists Fy.
      split; [apply (agree_trans _ n F Fx Fy A1), (agree_le _ n n1); auto|]. split; auto. intros v Hv.
      assert (VE : forall y, vsort (srt E1) y = vsort (srt E) y) by apply (gr_vsort _ _ _ _ G1).
      assert (X1 : sem (srt E) (mk D so F) (back (mk D so F) b v) a -> sem (srt E) (mk D so Fy) v f1).
      { intros X. apply (agree_sem D so (srt E) n1 Fx Fy f1 A2 N12 S1 v). apply C1; auto. }
      assert (BK : forall z, In z (free_vars a2) -> back (mk D so Fx) b v z = back (mk D so F) b v z).
      { intros z Hz. unfold back. symmetry. apply (agree_eval D so n F Fx v (sub b z) A1). intros g Hg. unfold sub in Hg. destruct (b z) as [u|] eqn:Bz; [|destruct Hg].
        destruct (K6 z u Bz) as [k [us [-> [A [B _]]]]]. destruct Hg as [<-|Hg]; auto. exfalso. apply in_flat_map in Hg. destruct Hg as [w [Hw Hg]]. apply in_map_iff in Hw. destruct Hw as [u [<- _]]. destruct Hg. }
      assert (X2 : sem (srt E) (mk D so F) (back (mk D so F) b v) a2 -> sem (srt E) (mk D so Fy) v f2).
      { intros X. apply (sem_sorts (srt E1) (srt E) (mk D so Fy) f2 VE). apply C2; [intros y; rewrite VE; apply Hv|]. apply (sem_sorts (srt E1) (srt E) (mk D so Fx) a2 VE).
        apply (sem_ext (srt E) (mk D so Fx) a2 _ _ BK). apply (agree_sem D so (srt E) n F Fx a2 A1 N2 SB). exact X. }
      cbn [sem]. destruct O as [-> | ->]; cbn; tauto.
  - destruct (Nat.eqb_spec (vcount (FQ q x a)) 0) as [V|_]; [eapply GR; eauto|]. destruct K as [K1 K2 K3 K4 K5 K6 K7 K8]. cbn [is_nnf form_ok form_syms bvars free_vars] in *.
    destruct K2 as [Px OKa]. inversion K4 as [|x0 l0 NX NDa E0]; subst x0 l0. destruct (K5 x (or_introl eq_refl)) as [XU BX].
    assert (FR : forall z, In z (free_vars a) -> z = x \/ b z <> None \/ In z U).
    { intros z Hz. destruct (Nat.eq_dec z x) as [->|N]; auto. right. apply K7, filter_In. split; auto. apply negb_true_iff, Nat.eqb_neq; auto. }
    destruct q.
    + destruct (IH E n b (U ++ [x]) HE HN) as [f' [E' [n' [-> [G1 [U1 [F1 [S1 [D1 [I1 [V1 [SO1 CO1]]]]]]]]]]]].
      { constructor; auto.
        - intros y Hy. destruct (K5 y (or_intror Hy)) as [A B]. split; auto. intros X. apply in_app_or in X. destruct X as [X|[->|[]]]; auto.
        - intros z t Hz. destruct (K6 z t Hz) as [k [us [A [B [C [D [F H]]]]]]]. exists k, us. split; auto. split; [intros y Hy; apply in_or_app; auto|]. repeat (split; auto).
          intros X. apply in_app_or in X. destruct X as [X|[->|[]]]; auto. congruence.
        - intros z Hz. destruct (FR z Hz) as [->|[H|H]]; auto; right; apply in_or_app; cbn; auto.
        - intros y Hy. apply in_app_or in Hy. destruct Hy as [Hy|[<-|[]]]; auto. }
      do 3 eexists. split; [reflexivity|]. split; [exact G1|]. split; [exact U1|]. split; [split; auto|]. split; auto.
      split; [constructor; auto|]. split; [intros y [<-|Hy]; [left; auto|right; apply I1; auto]|].
      split. { intros y Hy. cbn [free_vars] in Hy. apply filter_In in Hy. destruct Hy as [Hy N]. apply negb_true_iff, Nat.eqb_neq in N. specialize (V1 y Hy). apply in_app_or in V1. destruct V1 as [V1|[V1|[]]]; auto; contradiction. }
      assert (BK : forall M (v : var -> dom M) d z, In z (free_vars a) -> back M b (vset v x d) z = vset (back M b v) x d z).
      { intros M v d z Hz. unfold back. destruct (Nat.eq_dec x z) as [<-|N].
        - rewrite vset_same. unfold sub. rewrite BX. cbn. apply vset_same.
        - rewrite vset_other by auto. apply eval_ext. intros y Hy. apply vset_other. intros <-. unfold sub in Hy. destruct (b z) as [t|] eqn:Bz.
          + destruct (K6 z t Bz) as [k [us [-> [A _]]]]. cbn [vars] in Hy. apply (proj1 (vars_mapVar _ _)) in Hy. apply A in Hy. auto.
          + destruct Hy as [->|[]]. auto. }
      split.
      * intros M SI v Hv. cbn [sem]. intros X d Hd. apply (sem_ext (srt E) M a _ _ (BK M v d)). apply SO1; auto. apply respects_vset; auto.
      * intros D so F HM. destruct (CO1 D so F HM) as [F' [A1 [M1 C1]]]. exists F'. split; auto. split; auto. intros v Hv X d Hd.
        apply C1; [apply (respects_vset (srt E) (mk D so F)); auto|]. apply (sem_ext (srt E) (mk D so F) a _ _ (BK (mk D so F) v d)). apply X; auto.
    + set (E1 := declare E n (map (vsort (srt E)) U) (vsort (srt E) x)). set (b1 := upd b x (Some (Fun n (map Var U)))). destruct HN as [N2 ND].
      assert (G0 : grows E n E1 (S n)) by apply grows_declare. pose proof (gr_ok _ _ _ _ G0 HE N2) as HE1. pose proof (grows_next _ _ _ _ G0 (conj N2 ND)) as HN1.
      assert (NW : forall us, (forall g, In g (tsyms (Fun n (map Var us))) -> g = n)).
      { intros us g [<-|Hg]; auto. exfalso. apply in_flat_map in Hg. destruct Hg as [w [Hw Hg]]. apply in_map_iff in Hw. destruct Hw as [u [<- _]]. destruct Hg. }
      assert (FR1 : fres (srt E1) n = vsort (srt E) x /\ fargs (srt E1) n = map (vsort (srt E)) U) by (cbn; rewrite Nat.eqb_refl; auto).
      unfold new_skolem. fold E1 b1.
      destruct (IH E1 (S n) b1 U HE1 HN1) as [f' [E' [n' [-> [G1 [U1 [F1 [S1 [D1 [I1 [V1 [SO1 CO1]]]]]]]]]]]].
      { constructor; auto.
        - eapply grows_form; eauto.
        - intros s Hs. specialize (K3 s Hs). lia.
        - intros y Hy. destruct (K5 y (or_intror Hy)) as [A B]. split; auto. unfold b1. rewrite upd_other; auto. intros ->. contradiction.
        - intros z t Hz. unfold b1, upd in Hz. destruct (Nat.eqb_spec x z) as [<-|N].
          + injection Hz as <-. exists n, U. split; auto. split; [apply incl_refl|]. split; [lia|]. destruct FR1 as [R1 R2]. split; [|split; [exact R1|auto]].
            apply wf_fun. split; [apply Forall_forall; intros u Hu; apply in_map_iff in Hu; destruct Hu as [y [<- _]]; reflexivity|]. rewrite R2, map_map. apply map_ext. intros y. reflexivity.
          + destruct (K6 z t Hz) as [k [us [-> [A [B [C [D F]]]]]]]. exists k, us. split; auto. split; auto. split; [lia|].
            assert (TS : forall g, In g (tsyms (Fun k (map Var us))) -> g < n).
            { intros g [<-|Hg]; auto. exfalso. apply in_flat_map in Hg. destruct Hg as [w [Hw Hg]]. apply in_map_iff in Hw. destruct Hw as [u [<- _]]. destruct Hg. }
            destruct (grows_wf E n E1 (S n) _ G0 TS) as [X Y]. rewrite X, Y. auto.
        - intros z Hz. unfold b1, upd. destruct (Nat.eqb_spec x z) as [<-|N]; [left; discriminate|]. destruct (FR z Hz) as [->|H]; [contradiction|auto]. }
      exists f', E', n'. split; [reflexivity|]. split; [eapply grows_trans; eauto|]. split; auto. split; auto. split; auto. split; auto. split; [apply incl_tl; auto|]. split; auto.
      pose proof (gr_le _ _ _ _ G1) as L1.
      split.
      * intros M SI v Hv X. cbn [sem]. assert (SI1 : sorted_in E' (S n) n' M) by (intros g ds Hg; apply SI; lia).
        assert (VE : forall y, vsort (srt E1) y = vsort (srt E) y) by reflexivity. apply (sem_sorts (srt E1) (srt E) M f' VE) in X. specialize (SO1 M SI1 v Hv X). apply (sem_sorts (srt E1) (srt E) M a VE) in SO1. exists (ifun M n (map v U)). split.
        -- destruct FR1 as [R1 R2]. rewrite <- R1, <- (gr_fres _ _ _ _ G1) by lia. apply SI; [lia|]. rewrite (gr_fargs _ _ _ _ G1), R2 by lia.
           clear - Hv. induction U; cbn; constructor; auto.
        -- apply (sem_ext (srt E) M a (back M b1 v)); [|exact SO1]. intros z Hz. unfold back, sub, b1, upd, vset. destruct (Nat.eqb_spec x z) as [<-|N]; auto. cbn [eval]. rewrite map_map. reflexivity.
      * intros D so F HM. set (s := vsort (srt E) x). set (bk := fun v : var -> D => back (mk D so F) b v : var -> D).
        set (Q := fun ds (d : D) => so s d /\ ((exists e (v : var -> D), respects (srt E) (mk D so F) v /\ map v U = ds /\ so s e /\ sem (srt E) (mk D so F) (vset (bk v) x e) a) ->
                     exists v : var -> D, respects (srt E) (mk D so F) v /\ map v U = ds /\ sem (srt E) (mk D so F) (vset (bk v) x d) a)).
        assert (QE : forall ds, exists d, Q ds d).
        { intros ds. destruct (classic (exists e (v : var -> D), respects (srt E) (mk D so F) v /\ map v U = ds /\ so s e /\ sem (srt E) (mk D so F) (vset (bk v) x e) a)) as [[e [v [A [B [C H]]]]]|NE].
          - exists e. split; auto. intros _. exists v; auto.
          - destruct (mo_inh _ _ _ HM s) as [d Hd]. exists d. split; auto. intros X. contradiction. }
        destruct (mo_inh _ _ _ HM s) as [d0 _].
        set (F1' := fun g ds => if Nat.eqb g n then epsilon (inhabits d0) (Q ds) else F g ds).
        assert (QS : forall ds, Q ds (F1' n ds)) by (intros ds; unfold F1'; rewrite Nat.eqb_refl; apply epsilon_spec, QE).
        assert (A1 : agree D n F F1') by (intros g ds Hg; unfold F1'; destruct (Nat.eqb_spec g n); auto; lia).
        assert (HM1 : model_ok (srt E1) (dist E1) (mk D so F1')).
        { constructor; cbn [mk ifun isort dom].
          - intros g ds Hds. destruct (Nat.eq_dec g n) as [->|N].
            + destruct FR1 as [-> _]. apply QS.
            + unfold F1'. cbn [E1 declare srt fres fargs] in Hds |- *. destruct (Nat.eqb_spec g n); [contradiction|]. apply (mo_fun _ _ _ HM); auto.
          - exact (mo_inh _ _ _ HM).
          - rewrite <- (A1 true_code []), <- (A1 false_code []) by (unfold true_code, false_code; lia). rewrite (gr_fres _ _ _ _ G0) by (unfold true_code; lia). exact (mo_bool _ _ _ HM).
          - rewrite <- (A1 true_code []), <- (A1 false_code []) by (unfold true_code, false_code; lia). exact (mo_tf _ _ _ HM).
          - exact (mo_dec _ _ _ HM).
          - intros g h Dg Dh NE. cbn [E1 declare dist] in Dg, Dh. assert (g < n) by (destruct (Nat.lt_ge_cases g n) as [|Hg]; auto; rewrite (ND g Hg) in Dg; discriminate).
            assert (h < n) by (destruct (Nat.lt_ge_cases h n) as [|Hh]; auto; rewrite (ND h Hh) in Dh; discriminate).
            rewrite <- !A1 by auto. apply (mo_dist _ _ _ HM); auto. }
        destruct (CO1 D so F1' HM1) as [F' [A2 [M2 C2]]]. exists F'. split; [apply (agree_trans _ n F F1' F' A1), (agree_le _ n (S n)); auto|]. split; auto.
        intros v Hv [e [He X]]. assert (VE : forall y, vsort (srt E1) y = vsort (srt E) y) by reflexivity.
        apply (sem_sorts (srt E1) (srt E) (mk D so F') f' VE). apply C2; [exact Hv|]. apply (sem_sorts (srt E1) (srt E) (mk D so F1') a VE). destruct (QS (map v U)) as [_ QY]. destruct QY as [v' [Hv' [EU Y]]].
        { exists e, v. split; [exact Hv|]. split; [reflexivity|]. split; [exact He|exact X]. }
        set (d := F1' n (map v U)) in *.
        assert (SA : sem (srt E) (mk D so F1') (vset (bk v) x d) a).
        { apply (agree_sem D so (srt E) n F F1' a A1 N2 K3). apply (sem_ext (srt E) (mk D so F) a (vset (bk v') x d)); [|exact Y]. intros z Hz.
          destruct (Nat.eq_dec x z) as [<-|N]; [rewrite !vset_same; auto|]. rewrite !vset_other by auto. unfold bk, back. apply eval_ext. intros y Hy.
          assert (YU : In y U).
          { unfold sub in Hy. destruct (b z) as [t|] eqn:Bz.
            - destruct (K6 z t Bz) as [k [us [-> [A _]]]]. cbn [vars] in Hy. apply (proj1 (vars_mapVar _ _)) in Hy. apply A in Hy. auto.
            - destruct Hy as [<-|[]]. destruct (FR z Hz) as [->|[H|H]]; auto; contradiction. }
          clear - EU YU. induction U as [|u us IHU]; [destruct YU|]. cbn in EU. injection EU as E1 E2. destruct YU as [<-|YU]; auto. }
        apply (sem_ext (srt E) (mk D so F1') a (vset (bk v) x d)); [|exact SA]. intros z Hz. unfold back, sub, b1, upd, vset. destruct (Nat.eqb_spec x z) as [<-|N].
        -- cbn [eval ifun mk]. unfold d. f_equal. rewrite map_map. reflexivity.
        -- unfold bk, back, sub. destruct (b z) as [u|] eqn:Bz; [|reflexivity]. apply (agree_eval D so n F F1' v u A1). destruct (K6 z u Bz) as [k [us [-> [A [B _]]]]].
           intros g [<-|Hg]; auto. exfalso. apply in_flat_map in Hg. destruct Hg as [w [Hw Hg]]. apply in_map_iff in Hw. destruct Hw as [u [<- _]]. destruct Hg.
Qed.
