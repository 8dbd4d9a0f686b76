(** * Proofs about simplification with unit clauses. *)
From Verif Require Import Terms Unify UnifyProofs MatchProofs Semantics Clauses ClausesProofs InferProofs Subsume SubsumeSpec SubsumeProofs SubsumeClause.

Section Units.
Variables (E : env) (n : nat).
Notation SS := (srt E).
Notation fuel_ok := (fuel_ok n).

Definition units_ok (units : list upos) : Prop := Forall (fun p => eqn_ok E (ulit p)) units.
Definition units_fuel (units : list upos) : Prop := Forall (fun p => fuel_ok (ulit p)) units.
(** the unit clause is true *)
Definition unit_true (M : structure) (p : upos) : Prop := clause_true SS M [ulit p].
(** the two terms denote the same, or never the same *)
Definition equal_in (M : structure) (t1 t2 : term) : Prop := forall v, respects SS M v -> eval M v t1 = eval M v t2.
Definition differ_in (M : structure) (t1 t2 : term) : Prop := forall v, respects SS M v -> eval M v t1 <> eval M v t2.

Lemma ukey_ok p : eqn_ok E (ulit p) -> wf SS (ukey p) /\ wf SS (uother p).
Proof. intros [A [B _]]. unfold ukey, uother. destruct (uleft p); auto. Qed.
Lemma ukey_fuel p : fuel_ok (ulit p) -> size (ukey p) < n /\ size (uother p) < n.
Proof. unfold ukey, uother. intros [A B]. destruct (uleft p); auto. Qed.

Definition key_inst (p : upos) (t1 t2 : term) : Prop :=
  exists s, wfsubst SS s /\ app s (ukey p) = t1 /\ app s (uother p) = t2.

Lemma find_top_ok sign t1 t2 : wf SS t1 -> wf SS t2 -> forall units, units_ok units ->
  match find_top E n units sign t1 t2 with
  | Found p => In p units /\ (forall b, sign = Some b -> pos (ulit p) = b) /\ key_inst p t1 t2
  | NotFound => fo_sorts SS (pp E) -> forall p, In p units -> (forall b, sign = Some b -> pos (ulit p) = b) -> ~ key_inst p t1 t2
  | FNoFuel => ~ units_fuel units
  | FUndef => False
  end.
Proof.
  intros W1 W2. induction units as [|p units IH]; intros HU; cbn [find_top]; [intros _ p []|].
  inversion HU as [|? ? Hp Hu]; subst. specialize (IH Hu). destruct (ukey_ok p Hp) as [Wk Wo].
  assert (SKIP : (fo_sorts SS (pp E) -> (forall b, sign = Some b -> pos (ulit p) = b) -> ~ key_inst p t1 t2) ->
    match find_top E n units sign t1 t2 with
    | Found p' => In p' (p :: units) /\ (forall b, sign = Some b -> pos (ulit p') = b) /\ key_inst p' t1 t2
    | NotFound => fo_sorts SS (pp E) -> forall p', In p' (p :: units) -> (forall b, sign = Some b -> pos (ulit p') = b) -> ~ key_inst p' t1 t2
    | FNoFuel => ~ units_fuel (p :: units)
    | FUndef => False
    end).
  { intros HX. destruct (find_top E n units sign t1 t2); auto.
    - simpl. tauto.
    - intros HF p' [<-|I] Hs; [apply HX; auto|apply IH; auto].
    - intros F. inversion F; subst; auto. }
  pose proof (smatch_correct n SS (pp E) no_bindings (ukey p) t1 (no_bindings_wf SS) Wk W1) as M1.
  destruct (smatch n SS (pp E) no_bindings (ukey p) t1) as [st|st| |].
  - destruct M1 as [_ [B [A _]]].
    destruct (match sign with Some b => Bool.eqb (pos (ulit p)) b | None => true end) eqn:Sg.
    + pose proof (smatch_correct n SS (pp E) st (uother p) t2 B Wo W2) as M2.
      destruct (smatch n SS (pp E) st (uother p) t2) as [st2|st2| |].
      * destruct M2 as [_ [B2 [A2 _]]]. split; [simpl; auto|]. split.
        { intros b ->. apply Bool.eqb_prop; auto. }
        exists (as_subst (bnd st2)). split; [apply as_subst_wf; auto|].
        destruct (proj1 (A2 _) (as_subst_agrees (bnd st2))) as [A3 A4]. apply A in A3. tauto.
      * apply SKIP. intros HF _ [s [Ws [E1 E2]]]. destruct M2 as [_ [_ N]]. apply (N HF s Ws); auto. apply A. split; auto. apply no_bindings_agrees.
      * intros F. inversion F as [|? ? F1 _]; subst. destruct (ukey_fuel p F1). lia.
      * auto.
    + apply SKIP. intros _ Hs _. destruct sign as [b|]; [|discriminate]. rewrite (Hs b eq_refl) in Sg. rewrite Bool.eqb_reflx in Sg. discriminate.
  - destruct M1 as [_ [_ N]]. apply SKIP. intros HF _ [s [Ws [E1 _]]]. apply (N HF s Ws); auto. apply no_bindings_agrees.
  - intros F. inversion F as [|? ? F1 _]; subst. destruct (ukey_fuel p F1). lia.
  - auto.
Qed.

Lemma key_inst_equal M p t1 t2 : model_ok SS (dist E) M -> unit_true M p -> key_inst p t1 t2 ->
  if pos (ulit p) then equal_in M t1 t2 else differ_in M t1 t2.
Proof.
  intros HM HT [s [Ws [<- <-]]].
  assert (X : forall v, respects SS M v -> lit_holds M v (pos (ulit p)) (app s (ukey p)) (app s (uother p))).
  { intros v Hv. pose proof (HT _ (respects_subst _ _ _ _ _ HM Hv Ws)) as Y. inversion Y as [? ? Z|? ? Z]; [|inversion Z].
    apply lit_holds_app. unfold holds in Z. unfold ukey, uother. destruct (uleft p); auto. apply lit_holds_swap; auto. }
  unfold lit_holds in X. destruct (pos (ulit p)); intros v Hv; apply X; auto.
Qed.

Lemma find_top_sound M sign t1 t2 units p : model_ok SS (dist E) M -> wf SS t1 -> wf SS t2 -> units_ok units ->
  find_top E n units sign t1 t2 = Found p -> In p units /\ (forall b, sign = Some b -> pos (ulit p) = b) /\
  (unit_true M p -> if pos (ulit p) then equal_in M t1 t2 else differ_in M t1 t2).
Proof.
  intros HM W1 W2 HU H. pose proof (find_top_ok sign t1 t2 W1 W2 units HU) as X. rewrite H in X.
  destruct X as [A [B C]]. split; auto. split; auto. intros HT. apply key_inst_equal; auto.
Qed.

Lemma find_below_ok units : units_ok units -> forall k first t1 t2, wf SS t1 -> wf SS t2 -> (first = false -> t1 <> t2) ->
  match find_below E n k units first t1 t2 with
  | Found p => In p units /\ pos (ulit p) = true /\ forall M, model_ok SS (dist E) M -> unit_true M p -> equal_in M t1 t2
  | NotFound => True
  | FNoFuel => ~ (units_fuel units /\ size t1 <= k)
  | FUndef => False
  end.
Proof.
  intros HU.
  assert (KEY : forall k first t1 t2, wf SS t1 -> wf SS t2 -> (first = false -> t1 <> t2) ->
    (forall x y, size x < size t1 -> wf SS x -> wf SS y -> x <> y ->
      match (match k with O => FNoFuel | S k' => find_below E n k' units false x y end) with
      | Found p => In p units /\ pos (ulit p) = true /\ forall M, model_ok SS (dist E) M -> unit_true M p -> equal_in M x y
      | NotFound => True
      | FNoFuel => ~ (units_fuel units /\ size t1 <= k)
      | FUndef => False
      end) ->
    match find_below E n k units first t1 t2 with
    | Found p => In p units /\ pos (ulit p) = true /\ forall M, model_ok SS (dist E) M -> unit_true M p -> equal_in M t1 t2
    | NotFound => True
    | FNoFuel => ~ (units_fuel units /\ size t1 <= k)
    | FUndef => False
    end).
  { intros k first t1 t2 W1 W2 HN REC. 
    assert (U : find_below E n k units first t1 t2 = 
      match t1, t2 with
      | Fun f a, Fun g b =>
          if negb (Nat.eqb f g) || match a with [] => true | _ => false end then NotFound
          else match diff_args a b with
               | None => FUndef
               | Some [] => if first then NotFound else FUndef
               | Some [(x, y)] =>
                   match find_top E n units (Some true) x y with
                   | NotFound => match k with O => FNoFuel | S k' => find_below E n k' units false x y end
                   | r => r
                   end
               | Some _ => NotFound
               end
      | _, _ => NotFound
      end) by (destruct k; reflexivity).
    rewrite U. clear U. destruct t1 as [x|f a], t2 as [y|g b]; auto. destruct (Nat.eqb_spec f g) as [->|N]; cbn [negb orb]; auto.
    pose proof (wf_fun_length SS g a b W1 W2) as HL.
    destruct (match a with [] => true | _ => false end); auto.
    destruct (diff_args a b) as [[|[x y] [|]]|] eqn:D; auto.
    - destruct first; auto. apply HN; auto. apply diff_args_nil in D; auto. congruence.
    - destruct (diff_args_one a b x y HL D) as [l [r [Qa [Qb NE]]]].
      assert (Ix : In x a) by (rewrite Qa; apply in_elt). assert (Iy : In y b) by (rewrite Qb; apply in_elt).
      assert (Wx : wf SS x) by (apply (wf_arg E g a); auto). assert (Wy : wf SS y) by (apply (wf_arg E g b); auto).
      pose proof (find_top_ok (Some true) x y Wx Wy units HU) as T.
      destruct (find_top E n units (Some true) x y) as [p| | |] eqn:FT; auto.
      + destruct T as [I [P K]]. specialize (P true eq_refl). split; auto. split; auto.
        intros M HM HT. pose proof (key_inst_equal M p x y HM HT K) as X. rewrite P in X.
        intros v Hv. rewrite Qa, Qb. apply eval_args. apply X; auto.
      + specialize (REC x y (size_arg g a x Ix) Wx Wy NE). destruct k as [|k]; auto.
        destruct (find_below E n k units false x y) as [p| | |]; auto.
        destruct REC as [I [P K]]. split; auto. split; auto. intros M HM HT v Hv. rewrite Qa, Qb. apply eval_args. apply (K M HM HT v Hv).
      + tauto.
    - apply diff_args_none in D; auto. }
  induction k as [|k IH]; intros first t1 t2 W1 W2 HN; apply KEY; auto.
  - intros x y Hs _ _ _ [_ K]. lia.
  - intros x y Hs Wx Wy NE. specialize (IH false x y Wx Wy (fun _ => NE)).
    destruct (find_below E n k units false x y) as [p| | |]; auto. intros [F K]. apply IH. split; auto. lia.
Qed.

Lemma find_simplifying_ok units po t1 t2 : units_ok units -> wf SS t1 -> wf SS t2 ->
  match find_simplifying E n units po t1 t2 with
  | Found p => In p units /\ (po = true -> pos (ulit p) = true) /\
       forall M, model_ok SS (dist E) M -> unit_true M p -> if pos (ulit p) then equal_in M t1 t2 else differ_in M t1 t2
  | NotFound => True
  | FNoFuel => ~ (units_fuel units /\ size t1 <= n)
  | FUndef => False
  end.
Proof.
  intros HU W1 W2. unfold find_simplifying. pose proof (find_top_ok (if po then Some true else None) t1 t2 W1 W2 units HU) as T.
  destruct (find_top E n units (if po then Some true else None) t1 t2) as [p| | |] eqn:FT; auto.
  - destruct T as [I [P K]]. split; auto. split; [intros ->; apply P; auto|]. intros M HM HT. apply key_inst_equal; auto.
  - pose proof (find_below_ok units HU n true t1 t2 W1 W2 ltac:(discriminate)) as B.
    destruct (find_below E n n units true t1 t2) as [p| | |]; auto. destruct B as [I [P K]]. split; auto. split; auto.
    rewrite P. exact K.
  - tauto.
Qed.

(** the version that may use several units *)
Lemma pairs_size_app a b : pairs_size (a ++ b) = pairs_size a + pairs_size b.
Proof. induction a as [|[x y] a IH]; simpl; auto. lia. Qed.
Lemma pairs_size_rev a : pairs_size (rev a) = pairs_size a.
Proof. induction a as [|[x y] a IH]; simpl; auto. rewrite pairs_size_app. simpl. lia. Qed.

Definition wf_pairs (st : list (term * term)) : Prop := Forall (fun q => wf SS (fst q) /\ wf SS (snd q)) st.

Lemma strong_loop_ok units : units_ok units -> forall k stack last, wf_pairs stack ->
  match strong_loop E n k units true stack last with
  | Found p => (last = Found p \/ (In p units /\ pos (ulit p) = true)) /\
      forall M, model_ok SS (dist E) M -> (forall u, In u units -> pos (ulit u) = true -> unit_true M u) ->
        Forall (fun q => equal_in M (fst q) (snd q)) stack
  | NotFound => True
  | FNoFuel => last <> FNoFuel -> ~ (units_fuel units /\ pairs_size stack <= k)
  | FUndef => last = FUndef
  end.
Proof.
  intros HU. induction k as [|k IH]; intros stack last HW.
  - destruct stack as [|[t1 t2] rest]; cbn [strong_loop].
    + destruct last; auto.
    + intros _ [_ K]. simpl in K. pose proof (size_pos t1). lia.
  - destruct stack as [|[t1 t2] rest]; cbn [strong_loop]; [destruct last; auto|].
    inversion HW as [|? ? [W1 W2] Hr]; subst. cbn [fst snd] in *.
    pose proof (find_top_ok (Some true) t1 t2 W1 W2 units HU) as T.
    destruct (find_top E n units (Some true) t1 t2) as [p| | |] eqn:FT; auto.
    + destruct T as [I [P K]]. specialize (P true eq_refl). specialize (IH rest (Found p) Hr).
      destruct (strong_loop E n k units true rest (Found p)) as [q| | |]; auto.
      * destruct IH as [A B]. split; [right; destruct A as [A|A]; [injection A as <-; auto|auto]|].
        intros M HM HT. constructor; auto. cbn [fst snd]. pose proof (key_inst_equal M p t1 t2 HM (HT p I P) K) as X. rewrite P in X. exact X.
      * intros _ [F G]. apply (IH ltac:(discriminate)). split; auto. simpl in G. pose proof (size_pos t1). lia.
      * discriminate.
    + destruct t1 as [x|f a], t2 as [y|g b]; auto. destruct (Nat.eqb_spec f g) as [->|N]; cbn [negb orb]; auto.
      pose proof (wf_fun_length SS g a b W1 W2) as HL.
      destruct (match a with [] => true | _ => false end); auto.
      destruct (diff_args a b) as [ps|] eqn:D; [|exfalso; apply (diff_args_none a b HL D)].
      assert (HW' : wf_pairs (rev ps ++ rest)).
      { apply Forall_app. split; auto. apply Forall_rev. apply Forall_forall. intros [x y] I. destruct (diff_args_in a b ps x y D I).
        split; [apply (wf_arg E g a)|apply (wf_arg E g b)]; auto. }
      specialize (IH (rev ps ++ rest) NotFound HW').
      destruct (strong_loop E n k units true (rev ps ++ rest) NotFound) as [q| | |]; auto.
      * destruct IH as [[A|A] B]; [discriminate|]. split; auto. intros M HM HT. specialize (B M HM HT). apply Forall_app in B.
        destruct B as [B1 B2]. constructor; auto. cbn [fst snd]. intros v Hv. simpl. f_equal.
        apply (diff_args_eval M v a b ps HL D). apply Forall_rev in B1. rewrite rev_involutive in B1.
        eapply Forall_impl; [|exact B1]. cbn. auto.
      * intros _ [F G]. apply (IH ltac:(discriminate)). split; auto. simpl in G. rewrite pairs_size_app, pairs_size_rev.
        pose proof (diff_args_size a b ps D). lia.
      * discriminate.
    + intros _ [F _]. auto.
    + contradiction.
Qed.

Definition all_true (M : structure) (units : list upos) : Prop := forall u, In u units -> unit_true M u.

Lemma find_pos_unit_ok strong units t1 t2 : units_ok units -> wf SS t1 -> wf SS t2 ->
  match find_pos_unit E n strong units t1 t2 with
  | Found p => In p units /\ pos (ulit p) = true /\
       (forall M, model_ok SS (dist E) M -> (if strong then all_true M units else unit_true M p) -> equal_in M t1 t2)
  | NotFound => True
  | FNoFuel => ~ (units_fuel units /\ size t1 <= n)
  | FUndef => False
  end.
Proof.
  intros HU W1 W2. unfold find_pos_unit. destruct strong.
  - unfold strong_subsumes. pose proof (strong_loop_ok units HU n [(t1, t2)] NotFound ltac:(constructor; [cbn; auto|constructor])) as X.
    destruct (strong_loop E n n units true [(t1, t2)] NotFound) as [p| | |]; auto.
    + destruct X as [[A|[A B]] C]; [discriminate|]. split; auto. split; auto. intros M HM HT.
      specialize (C M HM ltac:(intros; apply HT; auto)). inversion C; auto.
    + intros [F G]. apply X; [discriminate|]. split; auto. simpl. lia.
    + discriminate.
  - pose proof (find_simplifying_ok units true t1 t2 HU W1 W2) as X.
    destruct (find_simplifying E n units true t1 t2) as [p| | |]; auto. destruct X as [A [B C]]. specialize (B eq_refl).
    split; auto. split; auto. rewrite B in C. exact C.
Qed.

Notation lits_fuel c := (Forall (fun e => size (lt e) <= n) c).

Lemma unit_set_subsumes_ok strong units : units_ok units -> forall c, clause_ok E c ->
  match unit_set_subsumes E n strong units c with
  | Found p => In p units /\
       forall M, model_ok SS (dist E) M -> (if strong then all_true M units else unit_true M p) -> clause_true SS M c
  | NotFound => True
  | FNoFuel => ~ (units_fuel units /\ lits_fuel c)
  | FUndef => False
  end.
Proof.
  intros HU. induction c as [|h c IH]; intros HC; cbn [unit_set_subsumes]; auto. inversion HC as [|? ? Hh Hc]; subst.
  specialize (IH Hc). destruct Hh as [W1 [W2 _]].
  assert (SKIP : match unit_set_subsumes E n strong units c with
    | Found p => In p units /\
       forall M, model_ok SS (dist E) M -> (if strong then all_true M units else unit_true M p) -> clause_true SS M (h :: c)
    | NotFound => True
    | FNoFuel => ~ (units_fuel units /\ lits_fuel (h :: c))
    | FUndef => False
    end).
  { destruct (unit_set_subsumes E n strong units c) as [p| | |]; auto.
    - destruct IH as [A B]. split; auto. intros M HM HT v Hv. right. apply (B M HM HT v Hv).
    - intros [F G]. inversion G; subst. auto. }
  destruct (pos h) eqn:Ph.
  - pose proof (find_pos_unit_ok strong units (lt h) (rt h) HU W1 W2) as X.
    destruct (find_pos_unit E n strong units (lt h) (rt h)) as [p| | |]; auto.
    + destruct X as [A [B C]]. split; auto. intros M HM HT v Hv. left. unfold holds, lit_holds. rewrite Ph. apply (C M HM HT v Hv).
    + intros [F G]. inversion G; subst. auto.
  - pose proof (find_top_ok (Some false) (lt h) (rt h) W1 W2 units HU) as X.
    destruct (find_top E n units (Some false) (lt h) (rt h)) as [p| | |]; auto.
    + destruct X as [A [B C]]. specialize (B false eq_refl). split; auto. intros M HM HT v Hv. left. unfold holds, lit_holds. rewrite Ph.
      pose proof (key_inst_equal M p (lt h) (rt h) HM ltac:(destruct strong; auto; apply HT; auto) C) as Y. rewrite B in Y. apply Y; auto.
    + intros [F G]. inversion G; subst. auto.
Qed.

(** Removing literals that are false in every model of the units *)
Definition equivalent_under (M : structure) (c d : clause) : Prop := clause_true SS M c <-> clause_true SS M d.
Definition lits_equivalent (M : structure) (c d : clause) : Prop :=
  forall v, respects SS M v -> (Exists (holds M v) c <-> Exists (holds M v) d).
Lemma lits_equivalent_true M c d : lits_equivalent M c d -> equivalent_under M c d.
Proof. intros H. split; intros HT v Hv; apply H; auto. Qed.

Lemma pos_sr_ok strong units : units_ok units -> forall c, clause_ok E c ->
  match pos_simplify_reflect E n strong units c with
  | Some (c', used) => (forall p, In p used -> In p units) /\ clause_ok E c' /\ length c' + length used = length c
       /\ forall M, model_ok SS (dist E) M -> (if strong then all_true M units else all_true M used) -> lits_equivalent M c c'
  | None => ~ (units_fuel units /\ lits_fuel c)
  end.
Proof.
  intros HU. induction c as [|h c IH]; intros HC; cbn [pos_simplify_reflect].
  - split; [intros p []|]. split; [constructor|]. split; auto. intros M HM _ v Hv. tauto.
  - inversion HC as [|? ? Hh Hc]; subst. specialize (IH Hc). pose proof Hh as [W1 [W2 _]].
    assert (KEEP : match (match pos_simplify_reflect E n strong units c with Some (r, us) => Some (h :: r, us) | None => None end) with
      | Some (c', used) => (forall p, In p used -> In p units) /\ clause_ok E c' /\ length c' + length used = length (h :: c)
         /\ forall M, model_ok SS (dist E) M -> (if strong then all_true M units else all_true M used) -> lits_equivalent M (h :: c) c'
      | None => ~ (units_fuel units /\ lits_fuel (h :: c))
      end).
    { destruct (pos_simplify_reflect E n strong units c) as [[r us]|].
      - destruct IH as [A [B [C D]]]. split; auto. split; [constructor; auto|]. split; [simpl; lia|].
        intros M HM HT v Hv. specialize (D M HM HT v Hv). rewrite !Exists_cons. tauto.
      - intros [F G]. inversion G; subst. auto. }
    destruct (pos h) eqn:Ph; cbn [negb]; auto.
    pose proof (find_pos_unit_ok strong units (lt h) (rt h) HU W1 W2) as X.
    destruct (find_pos_unit E n strong units (lt h) (rt h)) as [p| | |]; auto.
    + destruct X as [A [B C]]. destruct (pos_simplify_reflect E n strong units c) as [[r us]|].
      * destruct IH as [I1 [I2 [I3 I4]]]. split; [intros q [<-|Hq]; auto|]. split; auto. split; [simpl; lia|].
        intros M HM HT v Hv. rewrite Exists_cons.
        assert (Y : equal_in M (lt h) (rt h)).
        { apply C; auto. destruct strong; auto. apply HT. simpl; auto. }
        specialize (Y v Hv). specialize (I4 M HM ltac:(destruct strong; auto; intros u Hu; apply HT; simpl; auto) v Hv).
        unfold holds at 1, lit_holds. rewrite Ph. tauto.
      * intros [F G]. inversion G; subst. auto.
    + intros [F G]. inversion G; subst. auto.
Qed.

Lemma neg_sr_ok units : units_ok units -> forall c, clause_ok E c ->
  match neg_simplify_reflect E n units c with
  | Some (c', used) => (forall p, In p used -> In p units) /\ clause_ok E c' /\ length c' + length used = length c
       /\ forall M, model_ok SS (dist E) M -> all_true M used -> lits_equivalent M c c'
  | None => ~ units_fuel units
  end.
Proof.
  intros HU. induction c as [|h c IH]; intros HC; cbn [neg_simplify_reflect].
  - split; [intros p []|]. split; [constructor|]. split; auto. intros M HM _ v Hv. tauto.
  - inversion HC as [|? ? Hh Hc]; subst. specialize (IH Hc). pose proof Hh as [W1 [W2 _]].
    assert (KEEP : match (match neg_simplify_reflect E n units c with Some (r, us) => Some (h :: r, us) | None => None end) with
      | Some (c', used) => (forall p, In p used -> In p units) /\ clause_ok E c' /\ length c' + length used = length (h :: c)
         /\ forall M, model_ok SS (dist E) M -> all_true M used -> lits_equivalent M (h :: c) c'
      | None => ~ units_fuel units
      end).
    { destruct (neg_simplify_reflect E n units c) as [[r us]|]; auto.
      destruct IH as [A [B [C D]]]. split; auto. split; [constructor; auto|]. split; [simpl; lia|].
      intros M HM HT v Hv. specialize (D M HM HT v Hv). rewrite !Exists_cons. tauto. }
    destruct (pos h) eqn:Ph; auto.
    pose proof (find_top_ok (Some false) (lt h) (rt h) W1 W2 units HU) as X.
    destruct (find_top E n units (Some false) (lt h) (rt h)) as [p| | |]; auto.
    + destruct X as [A [B C]]. specialize (B false eq_refl). destruct (neg_simplify_reflect E n units c) as [[r us]|]; auto.
      destruct IH as [I1 [I2 [I3 I4]]]. split; [intros q [<-|Hq]; auto|]. split; auto. split; [simpl; lia|].
      intros M HM HT v Hv. rewrite Exists_cons.
      pose proof (key_inst_equal M p (lt h) (rt h) HM (HT p (or_introl eq_refl)) C) as Y. rewrite B in Y. specialize (Y v Hv).
      specialize (I4 M HM ltac:(intros u Hu; apply HT; simpl; auto) v Hv).
      unfold holds at 1, lit_holds. rewrite Ph. tauto.
Qed.

(** ClauseSimplifyWithUnitSet *)
Lemma simplify_with_units_ok full units : units_ok units -> forall c dn, clause_ok E c -> clause_ok E dn ->
  match simplify_with_units E n full units dn c with
  | Some (inl p) => In p units /\ forall M, model_ok SS (dist E) M -> unit_true M p -> clause_true SS M c
  | Some (inr d) => clause_ok E d /\ forall M, model_ok SS (dist E) M -> all_true M units -> lits_equivalent M (rev dn ++ c) d
  | None => ~ (units_fuel units /\ lits_fuel c)
  end.
Proof.
  intros HU. induction c as [|h c IH]; intros dn HC HD; cbn [simplify_with_units].
  - split; [apply Forall_rev; auto|]. intros M HM _ v Hv. rewrite app_nil_r. tauto.
  - inversion HC as [|? ? Hh Hc]; subst. pose proof Hh as [W1 [W2 _]].
    assert (X : match (if full then find_simplifying E n units false (lt h) (rt h) else find_top E n units None (lt h) (rt h)) with
      | Found p => In p units /\ forall M, model_ok SS (dist E) M -> unit_true M p -> if pos (ulit p) then equal_in M (lt h) (rt h) else differ_in M (lt h) (rt h)
      | NotFound => True
      | FNoFuel => ~ (units_fuel units /\ size (lt h) <= n)
      | FUndef => False
      end).
    { destruct full.
      - pose proof (find_simplifying_ok units false (lt h) (rt h) HU W1 W2) as Y. destruct (find_simplifying E n units false (lt h) (rt h)); tauto.
      - pose proof (find_top_ok None (lt h) (rt h) W1 W2 units HU) as Y. destruct (find_top E n units None (lt h) (rt h)); try tauto.
        destruct Y as [A [_ B]]. split; auto. intros M HM HT. apply key_inst_equal; auto. }
    destruct (if full then find_simplifying E n units false (lt h) (rt h) else find_top E n units None (lt h) (rt h)) as [p| | |].
    + destruct X as [A B]. destruct (Bool.eqb (pos h) (pos (ulit p))) eqn:Q.
      * apply Bool.eqb_prop in Q. split; auto. intros M HM HT v Hv. left. specialize (B M HM HT). unfold holds, lit_holds. rewrite Q.
        destruct (pos (ulit p)); apply B; auto.
      * specialize (IH dn Hc HD). destruct (simplify_with_units E n full units dn c) as [[q|d]|].
        -- destruct IH as [I1 I2]. split; auto. intros M HM HT v Hv. right. apply (I2 M HM HT v Hv).
        -- destruct IH as [I1 I2]. split; auto. intros M HM HT v Hv. specialize (I2 M HM HT v Hv). rewrite <- I2.
           rewrite !Exists_app, Exists_cons. specialize (B M HM (HT p A)). unfold holds at 2, lit_holds.
           destruct (pos h), (pos (ulit p)); try discriminate; specialize (B v Hv); tauto.
        -- intros [F G]. inversion G; subst. auto.
    + specialize (IH (h :: dn) Hc ltac:(constructor; auto)). destruct (simplify_with_units E n full units (h :: dn) c) as [[q|d]|].
      * destruct IH as [I1 I2]. split; auto. intros M HM HT v Hv. right. apply (I2 M HM HT v Hv).
      * destruct IH as [I1 I2]. split; auto. intros M HM HT v Hv. specialize (I2 M HM HT v Hv). rewrite <- I2.
        simpl. rewrite <- app_assoc. reflexivity.
      * intros [F G]. inversion G; subst. auto.
    + intros [F G]. inversion G; subst. auto.
    + contradiction.
Qed.
End Units.
