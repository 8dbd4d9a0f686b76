(** * Proofs about clausification: every step comes to an end, with a result of the expected shape. *)
From Verif Require Import Terms Unify Semantics Clauses Split CNF CNFProofs.

Definition plain (o : op) : Prop := match o with And | Or | Impl | Equiv => True | _ => False end.
Fixpoint basic (f : form) : Prop :=
  match f with
  | FLit _ _ _ | FAtom _ => True
  | FNot a => basic a
  | FBin o a b => plain o /\ basic a /\ basic b
  | FQ _ _ a => basic a
  end.
Fixpoint is_nnf (f : form) : Prop :=
  match f with
  | FLit _ _ _ => True
  | FBin (And | Or) a b => is_nnf a /\ is_nnf b
  | FQ _ _ a => is_nnf a
  | _ => False
  end.
Fixpoint qfree (f : form) : Prop :=
  match f with
  | FLit _ _ _ | FAtom _ => True
  | FNot a => qfree a
  | FBin _ a b => qfree a /\ qfree b
  | FQ _ _ _ => False
  end.
Fixpoint prenex (f : form) : Prop := match f with FQ true _ a => prenex a | _ => qfree f end.
Fixpoint disj (f : form) : Prop := match f with FLit _ _ _ => True | FBin Or a b => disj a /\ disj b | _ => False end.
Fixpoint conj_disj (f : form) : Prop := match f with FBin And a b => conj_disj a /\ conj_disj b | _ => disj f end.
Fixpoint cnf_shape (f : form) : Prop := match f with FQ true _ a => cnf_shape a | _ => conj_disj f end.

Lemma wsimp_pos f : 1 <= wsimp f.
Proof. induction f as [| | |[]|]; cbn; lia. Qed.
Lemma wnnf_pos f : 1 <= wnnf f.
Proof. induction f as [| | |[]|]; cbn; lia. Qed.
Lemma wmini_pos f : 1 <= wmini f.
Proof. induction f as [| | |[]|]; cbn; lia. Qed.
Lemma wdist_pos f : 2 <= wdist f.
Proof. induction f as [| | |[]|]; cbn; nia. Qed.

(** [g] is [f] or smaller *)
Definition less (w : form -> nat) (g f : form) : Prop := g = f \/ w g < w f.
Lemma less_le w g f : less w g f -> w g <= w f.
Proof. intros [->|H]; lia. Qed.
Lemma less_trans w f g h : less w h g -> less w g f -> less w h f.
Proof. intros [->|A] [->|B]; unfold less; auto. right. lia. Qed.

(** ** Simplification *)
Definition basic_args (f : form) : Prop :=
  match f with FNot a => basic a | FBin _ a b => basic a /\ basic b | FQ _ _ a => basic a | _ => True end.
Lemma neg_alloc_basic h : basic h -> basic (neg_alloc h).
Proof. destruct h; cbn; auto. Qed.
Lemma wsimp_neg h : wsimp (neg_alloc h) <= S (wsimp h).
Proof. destruct h; cbn; auto; lia. Qed.
Lemma basic_basic_args f : basic f -> basic_args f.
Proof. destruct f; cbn; tauto. Qed.
Lemma basic_args_back f : basic_args f -> (forall a b o, f = FBin o a b -> plain o) -> basic f.
Proof. destruct f as [| | |o|]; cbn; intros H P; auto. split; [apply (P f1 f2); auto|tauto]. Qed.

Definition simp_good (rec : form -> option form) (w : nat) : Prop := forall h, wsimp h < w -> basic_args h -> exists h', rec h = Some h' /\ basic h' /\ less wsimp h' h.
Lemma simp_step_good rec limit f w : simp_good rec w -> wsimp f <= w -> basic_args f ->
  exists g, simp_step rec limit f = Some g /\ less wsimp g f /\ (basic g \/ (g = f /\ forall a b o, f = FBin o a b -> plain o)).
Proof.
  intros HR W B.
  assert (K : forall h, basic h -> basic_args h) by apply basic_basic_args.
  assert (TR : forall h, wsimp h < wsimp f -> basic_args h -> exists g, rec h = Some g /\ less wsimp g f /\ (basic g \/ (g = f /\ forall a b o, f = FBin o a b -> plain o))).
  { intros h Hw Hb. destruct (HR h ltac:(lia) Hb) as [g [A [C D]]]. exists g. split; auto. split; auto. right. apply less_le in D. lia. }
  assert (SM : forall a b o, f = FBin o a b -> plain o -> forall h, (basic h -> False) \/ basic h -> less wsimp h f -> basic h ->
     exists g, Some h = Some g /\ less wsimp g f /\ (basic g \/ (g = f /\ forall a b o, f = FBin o a b -> plain o))) by eauto.
  assert (ID : forall a b o, f = FBin o a b -> plain o -> exists g, Some f = Some g /\ less wsimp g f /\ (basic g \/ (g = f /\ forall a b o, f = FBin o a b -> plain o))).
  { intros a b o Ef P. exists f. split; auto. split; [left; auto|]. right. split; auto. intros a' b' o' X. congruence. }
  assert (PC : forall p, basic (prop_const p)) by (intros; exact I).
  destruct f as [p l r|t|a|o a b|q x a]; cbn [simp_step].
  - eexists; split; [reflexivity|]. split; [left; auto|]. left. exact I.
  - eexists; split; [reflexivity|]. split; [left; auto|]. left. exact I.
  - destruct a; eexists; (split; [reflexivity|]); try (split; [left; reflexivity|left; exact B]). split; [right; cbn; lia|left; exact I].
  - cbn [basic_args] in B. destruct B as [Ba Bb]. pose proof (wsimp_pos a) as Wa. pose proof (wsimp_pos b) as Wb. pose proof (wsimp_neg a) as Na. pose proof (wsimp_neg b) as Nb.
    pose proof (neg_alloc_basic a Ba) as NBa. pose proof (neg_alloc_basic b Bb) as NBb.
    destruct o; try (apply TR; cbn; [lia|tauto]);
      eexists; (split; [reflexivity|]); unfold return_other, return_it;
      repeat match goal with |- context [if ?c then _ else _] => destruct c end;
      (split; [first [left; reflexivity|right; cbn in *; lia]|]); try (left; assumption); try (left; exact I);
      right; (split; [reflexivity|]); intros a' b' o' X; injection X as <- _ _; exact I.
  - eexists; split; [reflexivity|]. destruct (_ || _); (split; [first [left; reflexivity|right; cbn; lia]|left; exact B]).
Qed.
Lemma simp_loop_good rec limit w : simp_good rec w -> forall n f, wsimp f < n -> wsimp f <= w -> basic_args f ->
  exists g, simp_loop rec limit n f = Some g /\ basic g /\ less wsimp g f.
Proof.
  intros HR. induction n as [|n IH]; intros f N W B; [lia|]. cbn [simp_loop]. destruct (simp_step_good rec limit f w HR W B) as [g [-> [L P]]].
  destruct (form_eqb_spec g f) as [->|NE].
  - exists f. split; auto. split; [|left; auto]. destruct P as [P|[_ P]]; auto. apply basic_args_back; auto.
  - destruct L as [L|L]; [contradiction|]. destruct P as [P|[P _]]; [|contradiction].
    destruct (IH g ltac:(lia) ltac:(lia) (basic_basic_args g P)) as [h [A [C D]]]. exists h. split; auto. split; auto. eapply less_trans; [exact D|right; auto].
Qed.
Lemma simp_good_all limit : forall n f, wsimp f < n -> exists g, simp n limit f = Some g /\ basic g /\ less wsimp g f.
Proof.
  induction n as [|n IH]; intros f N; [lia|]. assert (HR : simp_good (simp n limit) n) by (intros h Hh _; apply IH; auto). cbn [simp].
  destruct f as [p l r|t|a|o a b|q x a].
  - eexists; split; [reflexivity|]. split; [exact I|left; auto].
  - apply (simp_loop_good _ limit n HR); cbn in *; lia || auto.
  - cbn [wsimp] in N. destruct (IH a ltac:(lia)) as [a' [-> [Ba La]]]. pose proof (less_le _ _ _ La) as La'.
    destruct (simp_loop_good _ limit n HR (S (wsimp (FNot a'))) (FNot a')) as [g [-> [Bg Lg]]]; [lia|cbn; lia|exact Ba|]. exists g. split; auto. split; auto.
    eapply less_trans; [exact Lg|]. destruct La as [->|La]; [left; auto|right; cbn; lia].
  - assert (N' : wsimp a < n /\ wsimp b < n) by (destruct o; cbn in N; lia). destruct (IH a ltac:(lia)) as [a' [-> [Ba La]]]. destruct (IH b ltac:(lia)) as [b' [-> [Bb Lb]]].
    assert (LL : less wsimp (FBin o a' b') (FBin o a b)).
    { pose proof (less_le _ _ _ La). pose proof (less_le _ _ _ Lb). destruct La as [->|La]; [destruct Lb as [->|Lb]; [left; auto|]|]; right; destruct o; cbn; lia. }
    pose proof (less_le _ _ _ LL).
    destruct (simp_loop_good _ limit n HR (S (wsimp (FBin o a' b'))) (FBin o a' b')) as [g [-> [Bg Lg]]]; [lia|lia|split; auto|]. exists g. split; auto. split; auto.
    eapply less_trans; eauto.
  - cbn [wsimp] in N. destruct (IH a ltac:(lia)) as [a' [-> [Ba La]]]. pose proof (less_le _ _ _ La) as La'.
    destruct (simp_loop_good _ limit n HR (S (wsimp (FQ q x a'))) (FQ q x a')) as [g [-> [Bg Lg]]]; [lia|cbn; lia|exact Ba|]. exists g. split; auto. split; auto.
    eapply less_trans; [exact Lg|]. destruct La as [->|La]; [left; auto|right; cbn; lia].
Qed.
Lemma simplify_good limit f : exists g, simplify limit f = Some g /\ basic g.
Proof. destruct (simp_good_all limit (S (wsimp f)) f ltac:(lia)) as [g [A [B _]]]. exists g; auto. Qed.

(** ** Negation normal form *)
Definition npre (f : form) : Prop := basic f.
Lemma root_step_good pol f g : basic f -> root_step pol f = Some g -> basic g /\ wnnf g < wnnf f.
Proof.
  intros B. destruct f as [p l r|t|a|o a b|q x a]; cbn [root_step]; try discriminate.
  - destruct a as [p l r|t|a|o a b|q x a].
    + intros H. injection H as <-. split; [exact I|cbn; lia].
    + destruct (term_eqb t ttrue); [|destruct (term_eqb t tfalse); [|discriminate]]; intros H; injection H as <-; (split; [exact I|cbn; lia]).
    + intros H. injection H as <-. split; [exact B|]. pose proof (wnnf_pos a). cbn; lia.
    + destruct o; try discriminate; intros H; injection H as <-; cbn in *; (split; [tauto|lia]).
    + destruct q; intros H; injection H as <-; cbn in *; (split; [tauto|lia]).
  - destruct o; try discriminate; [|destruct pol]; intros H; injection H as <-; cbn in *; (split; [tauto|lia]).
Qed.
Lemma root_nnf_good pol : forall n f, basic f -> wnnf f < n -> exists g, root_nnf n pol f = Some g /\ basic g /\ less wnnf g f /\ root_step pol g = None.
Proof.
  induction n as [|n IH]; intros f B N; [lia|]. cbn [root_nnf]. destruct (root_step pol f) as [h|] eqn:R.
  - destruct (root_step_good pol f h B R) as [Bh Wh]. destruct (IH h Bh ltac:(lia)) as [g [A [C [D F]]]]. exists g. repeat split; auto.
    eapply less_trans; [exact D|right; auto].
  - exists f. repeat split; auto. left; auto.
Qed.
Lemma nnf_good : forall n pol f, basic f -> wnnf f < n -> exists g, nnf_rec n pol f = Some g /\ is_nnf g /\ basic g /\ less wnnf g f.
Proof.
  induction n as [|n IH]; intros pol f B N; [lia|]. cbn [nnf_rec].
  destruct (root_nnf_good pol (S (wnnf f)) f B ltac:(lia)) as [f1 [-> [B1 [L1 R1]]]]. pose proof (less_le _ _ _ L1) as L1'.
  assert (G : exists g, match f1 with
    | FNot a => match nnf_rec n (negb pol) a with
                | None => None
                | Some h => if form_eqb h a then Some (FNot a) else nnf_rec n pol (FNot h)
                end
    | FQ q x a => match nnf_rec n pol a with
                  | None => None
                  | Some h => if form_eqb h a then Some (FQ q x a) else nnf_rec n pol (FQ q x h)
                  end
    | FBin (And | Or) a b =>
        match nnf_rec n pol a, nnf_rec n pol b with
        | Some h, Some h2 =>
            if form_eqb h a && form_eqb h2 b then Some f1
            else match f1 with FBin o _ _ => nnf_rec n pol (FBin o h h2) | _ => None end
        | _, _ => None
        end
    | FAtom t => Some (encode_atom t)
    | _ => Some f1
    end = Some g /\ is_nnf g /\ basic g /\ less wnnf g f1).
  2:{ destruct G as [g [A [C [D F]]]]. exists g. split; [destruct f1 as [| | |[]|]; exact A|]. split; auto. split; auto. eapply less_trans; eauto. }
  destruct f1 as [p l r|t|a|o a b|q x a].
  - eexists; split; [reflexivity|]. split; [exact I|split; [exact I|left; auto]].
  - eexists; split; [reflexivity|]. unfold encode_atom. destruct (term_eqb t ttrue); [|destruct (term_eqb t tfalse)]; (split; [exact I|split; [exact I|right; cbn; lia]]).
  - cbn [basic wnnf] in *. pose proof (wnnf_pos a). destruct (IH (negb pol) a B1 ltac:(lia)) as [h [-> [Nh [Bh Lh]]]]. pose proof (less_le _ _ _ Lh). destruct (form_eqb_spec h a) as [->|NE].
    + exfalso. clear - R1 Nh. destruct a as [| | |[]|[]]; cbn in *; try discriminate; contradiction.
    + destruct Lh as [Lh|Lh]; [contradiction|]. destruct (IH pol (FNot h) Bh ltac:(cbn; lia)) as [g [A [C [D F]]]]. exists g. repeat split; auto.
      eapply less_trans; [exact F|right; cbn; lia].
  - assert (O : o = And \/ o = Or) by (destruct o; auto; cbn in R1, B1; try discriminate; try tauto; destruct pol; discriminate).
    assert (Ww : wnnf (FBin o a b) = wnnf a + wnnf b + 1) by (destruct O as [-> | ->]; reflexivity).
    cbn [basic] in B1. destruct B1 as [Po [Ba Bb]]. destruct (IH pol a Ba ltac:(lia)) as [h [Xa [Na [Ba' La]]]]. destruct (IH pol b Bb ltac:(lia)) as [h2 [Xb [Nb [Bb' Lb]]]].
    pose proof (less_le _ _ _ La). pose proof (less_le _ _ _ Lb).
    assert (G : exists g, (if form_eqb h a && form_eqb h2 b then Some (FBin o a b) else nnf_rec n pol (FBin o h h2)) = Some g /\ is_nnf g /\ basic g /\ less wnnf g (FBin o a b)).
    { destruct (form_eqb_spec h a) as [->|NE]; [destruct (form_eqb_spec h2 b) as [->|NE]|]; cbn [andb].
      - eexists; split; [reflexivity|]. split; [destruct O as [-> | ->]; split; auto|]. split; [cbn; auto|left; auto].
      - destruct Lb as [Lb|Lb]; [contradiction|]. assert (Wb : wnnf (FBin o a h2) = wnnf a + wnnf h2 + 1) by (destruct O as [-> | ->]; reflexivity).
        destruct (IH pol (FBin o a h2) ltac:(cbn; auto) ltac:(lia)) as [g [A [C [D F]]]]. exists g. repeat split; auto. eapply less_trans; [exact F|right; lia].
      - destruct La as [La|La]; [contradiction|]. assert (Wb : wnnf (FBin o h h2) = wnnf h + wnnf h2 + 1) by (destruct O as [-> | ->]; reflexivity).
        destruct (IH pol (FBin o h h2) ltac:(cbn; auto) ltac:(lia)) as [g [A [C [D F]]]]. exists g. repeat split; auto. eapply less_trans; [exact F|right; lia]. }
    destruct O as [-> | ->]; rewrite Xa, Xb; exact G.
  - cbn [basic wnnf] in *. destruct (IH pol a B1 ltac:(lia)) as [h [-> [Nh [Bh Lh]]]]. pose proof (less_le _ _ _ Lh). destruct (form_eqb_spec h a) as [->|NE].
    + eexists; split; [reflexivity|]. split; [exact Nh|split; [exact Bh|left; auto]].
    + destruct Lh as [Lh|Lh]; [contradiction|]. destruct (IH pol (FQ q x h) Bh ltac:(cbn; lia)) as [g [A [C [D F]]]]. exists g. repeat split; auto.
      eapply less_trans; [exact F|right; cbn; lia].
Qed.
Lemma nnf_total f : basic f -> exists g, nnf f = Some g /\ is_nnf g.
Proof. intros B. destruct (nnf_good (S (wnnf f)) true f B ltac:(lia)) as [g [A [C _]]]. exists g; auto. Qed.

(* quantifiers stay in front *)
Lemma root_step_qfree pol f g : qfree f -> root_step pol f = Some g -> qfree g.
Proof.
  destruct f as [p l r|t|a|o a b|q x a]; cbn [root_step]; try discriminate.
  - destruct a as [p l r|t|a|o a b|q x a]; intros Q H.
    + injection H as <-; exact I.
    + destruct (term_eqb t ttrue); [|destruct (term_eqb t tfalse); [|discriminate]]; injection H as <-; exact I.
    + injection H as <-; exact Q.
    + destruct o; try discriminate; injection H as <-; exact Q.
    + contradiction.
  - destruct o; try discriminate; [|destruct pol]; intros Q H; injection H as <-; cbn in *; tauto.
Qed.
Lemma root_nnf_qfree pol : forall n f g, qfree f -> root_nnf n pol f = Some g -> qfree g.
Proof.
  induction n as [|n IH]; intros f g Q H; [discriminate|]. cbn [root_nnf] in H. destruct (root_step pol f) as [h|] eqn:R; [|congruence].
  exact (IH h g (root_step_qfree pol f h Q R) H).
Qed.
Lemma nnf_qfree : forall n pol f g, qfree f -> nnf_rec n pol f = Some g -> qfree g.
Proof.
  induction n as [|n IH]; intros pol f g Q H; [discriminate|]. cbn [nnf_rec] in H. destruct (root_nnf (S (wnnf f)) pol f) as [f1|] eqn:R; [|discriminate].
  apply (root_nnf_qfree pol _ f f1 Q) in R. destruct f1 as [p l r|t|a|o a b|q x a].
  - injection H as <-; exact I.
  - injection H as <-. unfold encode_atom. destruct (term_eqb t ttrue); [|destruct (term_eqb t tfalse)]; exact I.
  - destruct (nnf_rec n (negb pol) a) as [h|] eqn:X; [|discriminate]. apply IH in X; auto. destruct (form_eqb h a); [injection H as <-; exact R|]. eapply IH; [|exact H]. exact X.
  - assert (G : (FBin o a b = g \/ exists h h2, nnf_rec n pol a = Some h /\ nnf_rec n pol b = Some h2 /\ nnf_rec n pol (FBin o h h2) = Some g)).
    { destruct o; try (left; congruence); (destruct (nnf_rec n pol a) as [h|] eqn:X; [|discriminate]); (destruct (nnf_rec n pol b) as [h2|] eqn:Y; [|discriminate]);
      (destruct (form_eqb h a && form_eqb h2 b); [left; congruence|right; exists h, h2; auto]). }
    destruct R as [Ra Rb]. destruct G as [<-|[h [h2 [X [Y Z]]]]]; [split; auto|]. eapply IH; [|exact Z]. split; eauto.
  - contradiction.
Qed.
Lemma nnf_prenex : forall n pol f g, prenex f -> nnf_rec n pol f = Some g -> prenex g.
Proof.
  assert (QP : forall f, qfree f -> prenex f) by (intros [| | | |[]]; auto; intros []).
  induction n as [|n IH]; intros pol f g P H; [discriminate|]. destruct f as [p l r|t|a|o a b|q x a]; try (apply QP; eapply nnf_qfree; [exact P|exact H]).
  destruct q; [|destruct P]. cbn [nnf_rec] in H. cbn [root_nnf root_step] in H. destruct (nnf_rec n pol a) as [h|] eqn:X; [|discriminate]. apply IH in X; auto.
  destruct (form_eqb h a); [injection H as <-; exact P|]. eapply IH; [|exact H]. exact X.
Qed.

(** ** Miniscoping *)
Lemma push_good f : less wmini (push_quant f) f /\ (is_nnf f -> is_nnf (push_quant f)).
Proof.
  destruct f as [p l r|t|a|o a b|q x a]; try (split; [left; reflexivity|auto]; fail). destruct a as [p l r|t|a|o a b|q' x' a]; try (split; [left; reflexivity|auto]; fail).
  assert (X : o = And \/ o = Or \/ push_quant (FQ q x (FBin o a b)) = FQ q x (FBin o a b)) by (destruct o; cbn; auto).
  pose proof (wmini_pos a) as Wa. pose proof (wmini_pos b) as Wb.
  destruct X as [-> | [-> | ->]]; [| |split; [left; auto|auto]]; cbn [push_quant].
  - destruct (is_free x a); cbn [negb]; [destruct (is_free x b); cbn [negb]; [destruct q|]|]; (split; [first [left; reflexivity|right; cbn; lia]|cbn; tauto]).
  - destruct (is_free x a); cbn [negb]; [destruct (is_free x b); cbn [negb]; [destruct q|]|]; (split; [first [left; reflexivity|right; cbn; lia]|cbn; tauto]).
Qed.
Lemma mini_good : forall n f, wmini f < n -> exists g, mini_rec n f = Some g /\ (is_nnf f -> is_nnf g) /\ less wmini g f.
Proof.
  induction n as [|n IH]; intros f N; [lia|]. cbn [mini_rec]. destruct (push_good f) as [L1 P1]. pose proof (less_le _ _ _ L1).
  destruct (push_quant f) as [p l r|t|a|o a b|q x a].
  - exists (FLit p l r). auto.
  - exists (FAtom t). auto.
  - cbn [wmini] in *. destruct (IH a ltac:(lia)) as [h [-> [Nh Lh]]]. destruct (form_eqb_spec h a) as [->|NE]; [exists (FNot a); auto|].
    destruct Lh as [Lh|Lh]; [contradiction|]. destruct (IH (FNot h) ltac:(cbn; lia)) as [g [A [C D]]]. exists g. split; auto. split; [intros Q; apply P1 in Q; destruct Q|].
    eapply less_trans; [exact D|]. eapply less_trans; [right|exact L1]. cbn; lia.
  - cbn [wmini] in *. destruct (IH a ltac:(lia)) as [h [-> [Nh Lh]]]. destruct (IH b ltac:(lia)) as [h2 [-> [Nh2 Lh2]]]. pose proof (less_le _ _ _ Lh). pose proof (less_le _ _ _ Lh2).
    destruct (form_eqb h a && form_eqb h2 b) eqn:Q; [exists (FBin o a b); auto|].
    assert (W : wmini h + wmini h2 < wmini a + wmini b).
    { destruct Lh as [->|Lh]; [|lia]. destruct Lh2 as [->|Lh2]; [|lia]. rewrite !form_eqb_refl in Q. discriminate. }
    destruct (IH (FBin o h h2) ltac:(cbn; lia)) as [g [A [C D]]]. exists g. split; auto. split.
    + intros K. apply P1 in K. apply C. destruct o; cbn in *; tauto.
    + eapply less_trans; [exact D|]. eapply less_trans; [right|exact L1]. cbn; lia.
  - cbn [wmini] in *. pose proof (wmini_pos a). destruct (IH a ltac:(lia)) as [h [-> [Nh Lh]]]. destruct (form_eqb_spec h a) as [->|NE]; [exists (FQ q x a); auto|].
    destruct Lh as [Lh|Lh]; [contradiction|]. destruct (IH (FQ q x h) ltac:(cbn; lia)) as [g [A [C D]]]. exists g. split; auto. split; [intros Q; apply P1 in Q; apply C; cbn in *; auto|].
    eapply less_trans; [exact D|]. eapply less_trans; [right|exact L1]. cbn; lia.
Qed.
Lemma copy_mod_good cands : forall f, exists g, copy_mod cands f = Some g /\ (is_nnf f -> is_nnf g).
Proof.
  assert (Z : forall f, exists g, miniscope f = Some g /\ (is_nnf f -> is_nnf g)).
  { intros f. destruct (mini_good (S (wmini f)) f ltac:(lia)) as [g [A [B _]]]. exists g; auto. }
  induction f as [p l r|t|a IH|o a IHa b IHb|q x a IH]; cbn [copy_mod].
  - eauto.
  - destruct (Nat.eqb _ 0); [eauto|]. destruct (existsb _ _); [auto|eauto].
  - destruct (Nat.eqb _ 0); [eauto|]. destruct (existsb _ _); [auto|]. destruct IH as [a' [-> N]]. eexists; split; [reflexivity|]. intros [].
  - destruct (Nat.eqb _ 0); [eauto|]. destruct (existsb _ _); [auto|]. destruct IHa as [a' [-> N]]. destruct IHb as [b' [-> N']]. eexists; split; [reflexivity|].
    destruct o; cbn; tauto.
  - destruct (Nat.eqb _ 0); [eauto|]. destruct (existsb _ _); [auto|eauto].
Qed.
Lemma miniscope3_good limit f : exists g, miniscope3 limit f = Some g /\ (is_nnf f -> is_nnf g).
Proof. unfold miniscope3. destruct (find_mini limit f false) as [[sz cands] ex]. destruct cands; [eauto|]. apply copy_mod_good. Qed.

(** ** Expansion *)
Lemma nnf_basic f : is_nnf f -> basic f.
Proof. induction f as [| | |[]|]; cbn; tauto. Qed.
Lemma expand_good E f : (basic f -> basic (expand E f)) /\ (qfree f -> qfree (expand E f)) /\ (prenex f -> prenex (expand E f)).
Proof.
  assert (X : forall l r, basic (expand_eq E l r) /\ qfree (expand_eq E l r)).
  { intros l r. unfold expand_eq. repeat match goal with |- context [if ?c then _ else _] => destruct c end; cbn; auto. }
  assert (QP : forall f, qfree f -> prenex f) by (intros [| | | |[]]; auto; intros []).
  induction f as [p l r|t|a IH|o a IHa b IHb|q x a IH]; cbn [expand].
  - destruct (X l r) as [A B]. destruct p; cbn [basic qfree prenex]; auto.
  - cbn; auto.
  - cbn [basic qfree prenex]. tauto.
  - cbn [basic qfree prenex]. tauto.
  - destruct q; cbn [basic qfree prenex]; tauto.
Qed.

(** ** Distribution *)
Lemma dist_good : forall n f, wdist f < n -> exists g, dist_rec n f = Some g /\ wdist g <= wdist f /\ (is_nnf f -> qfree f -> conj_disj g) /\ (is_nnf f -> prenex f -> cnf_shape g).
Proof.
  assert (CS : forall f, conj_disj f -> cnf_shape f) by (intros [| | | |[]]; auto; intros []).
  induction n as [|n IH]; intros f N; [lia|]. cbn [dist_rec]. destruct f as [p l r|t|a|o a b|q x a].
  - eexists; split; [reflexivity|]. cbn; auto.
  - eexists; split; [reflexivity|]. cbn; auto.
  - cbn [wdist] in N. destruct (IH a ltac:(lia)) as [a' [-> [Wa _]]]. eexists; split; [reflexivity|]. cbn. split; [lia|tauto].
  - pose proof (wdist_pos a) as Pa. pose proof (wdist_pos b) as Pb.
    assert (N' : wdist a < n /\ wdist b < n) by (destruct o; cbn in N; nia). destruct (IH a (proj1 N')) as [a' [-> [Wa [Qa _]]]]. destruct (IH b (proj2 N')) as [b' [-> [Wb [Qb _]]]].
    pose proof (wdist_pos a') as Pa'. pose proof (wdist_pos b') as Pb'.
    assert (G : exists g, match o with
            | Or => match a', b' with
                    | FBin And f1 f2, _ => dist_rec n (FBin And (FBin Or f1 b') (FBin Or f2 b'))
                    | _, FBin And f1 f2 => dist_rec n (FBin And (FBin Or f1 a') (FBin Or f2 a'))
                    | _, _ => Some (FBin Or a' b')
                    end
            | _ => Some (FBin o a' b') end = Some g /\ wdist g <= wdist (FBin o a b) /\ (is_nnf (FBin o a b) -> qfree (FBin o a b) -> conj_disj g)).
    { destruct o; try (eexists; split; [reflexivity|]; cbn; split; [lia|tauto]).
      assert (WW : wdist a' * wdist b' <= wdist (FBin Or a b)) by (cbn [wdist]; nia).
      assert (NC : forall f, conj_disj f -> (exists f1 f2, f = FBin And f1 f2) \/ disj f) by (intros [| | |[] f1 f2|]; cbn; eauto; tauto).
      assert (NA : forall f, (exists f1 f2, f = FBin And f1 f2) \/ forall f1 f2, f <> FBin And f1 f2) by (intros [| | |[] f1 f2|]; eauto; right; intros; discriminate).
      assert (DC : forall f, disj f -> conj_disj f) by (intros [| | |[] f1 f2|]; cbn; tauto).
      (* the shape of the new formula: its literals come from [a'] and [b'], which are conjunctions of disjunctions *)
      assert (RD : forall f1 f2 c g, conj_disj (FBin And f1 f2) -> conj_disj c -> dist_rec n (FBin And (FBin Or f1 c) (FBin Or f2 c)) = Some g -> wdist (FBin And (FBin Or f1 c) (FBin Or f2 c)) < n ->
        wdist g <= wdist (FBin And (FBin Or f1 c) (FBin Or f2 c)) /\ conj_disj g).
      { assert (CN : forall f, conj_disj f -> is_nnf f /\ qfree f) by (assert (DN : forall f, disj f -> is_nnf f /\ qfree f) by (induction f as [| | |[]|]; cbn; tauto); induction f as [| | |[]|]; cbn; intros; auto; try tauto; apply (DN (FBin Or f1 f2)); auto).
        intros f1 f2 c g C1 C2 H W. destruct (IH _ W) as [g' [A [B [C _]]]]. rewrite H in A. injection A as <-. split; auto. apply C.
        - destruct C1 as [C1 C1']. cbn. pose proof (CN f1 C1). pose proof (CN f2 C1'). pose proof (CN c C2). tauto.
        - destruct C1 as [C1 C1']. cbn. pose proof (CN f1 C1). pose proof (CN f2 C1'). pose proof (CN c C2). tauto. }
      destruct (NA a') as [[f1 [f2 ->]]|NAa].
      - assert (W : wdist (FBin And (FBin Or f1 b') (FBin Or f2 b')) < wdist (FBin And f1 f2) * wdist b') by (cbn [wdist] in *; nia).
        assert (W2 : wdist (FBin And (FBin Or f1 b') (FBin Or f2 b')) < n) by lia.
        destruct (IH _ W2) as [g [A [B _]]]. exists g. split; auto. split; [lia|].
        intros [N1 N2] [Q1 Q2]. apply (RD f1 f2 b' g); auto.
      - assert (EQ : match a', b' with
                    | FBin And f1 f2, _ => dist_rec n (FBin And (FBin Or f1 b') (FBin Or f2 b'))
                    | _, FBin And f1 f2 => dist_rec n (FBin And (FBin Or f1 a') (FBin Or f2 a'))
                    | _, _ => Some (FBin Or a' b')
                    end = match b' with FBin And f1 f2 => dist_rec n (FBin And (FBin Or f1 a') (FBin Or f2 a')) | _ => Some (FBin Or a' b') end).
        { destruct a' as [| | |[] g1 g2|]; try reflexivity. exfalso. eapply NAa; reflexivity. }
        rewrite EQ. destruct (NA b') as [[f1 [f2 ->]]|NAb].
        + assert (W : wdist (FBin And (FBin Or f1 a') (FBin Or f2 a')) < wdist a' * wdist (FBin And f1 f2)) by (cbn [wdist] in *; nia).
          assert (W2 : wdist (FBin And (FBin Or f1 a') (FBin Or f2 a')) < n) by lia.
          destruct (IH _ W2) as [g [A [B _]]]. exists g. split; auto. split; [lia|].
          intros [N1 N2] [Q1 Q2]. apply (RD f1 f2 a' g); auto.
        + exists (FBin Or a' b'). split; [destruct b' as [| | |[] g1 g2|]; try reflexivity; exfalso; eapply NAb; reflexivity|]. split; [exact WW|].
          intros [N1 N2] [Q1 Q2]. destruct (NC a' (Qa N1 Q1)) as [[f1 [f2 X]]|Da]; [exfalso; eapply NAa; eauto|]. destruct (NC b' (Qb N2 Q2)) as [[f1 [f2 X]]|Db]; [exfalso; eapply NAb; eauto|].
          cbn. auto. }
    destruct G as [g [A [B C]]]. exists g. split; auto.
  - cbn [wdist] in N. destruct (IH a ltac:(lia)) as [a' [-> [Wa [Qa Sa]]]]. eexists; split; [reflexivity|]. split; [cbn; lia|]. split; [intros _ []|]. destruct q; cbn; [auto|intros _ []].
Qed.
Lemma distribute_good f : is_nnf f -> prenex f -> exists g, distribute f = Some g /\ cnf_shape g.
Proof. intros A B. destruct (dist_good (S (wdist f)) f ltac:(lia)) as [g [H [_ [_ K]]]]. exists g; auto. Qed.
