(** * C15, C16, C18, C19: subsumption and the simplifications based on it. *)
From Coq Require Import Permutation.
From Verif Require Import Terms Unify UnifyProofs MatchProofs Semantics Clauses ClausesProofs InferTotal ExEnv
  Subsume SubsumeSpec SubsumeProofs SubsumeClause SubsumeUnits SubsumeCond.

(** ** C15: what is found to be subsumed is a consequence *)

Theorem C15_subsumed_clause_follows : forall E fuel c d,
  clause_ok E c -> clause_ok E d -> clause_subsumes E fuel c d = Ans true -> follows E [c] d.
Proof.
  intros E n c d HC HD H M HM HT. apply (clause_subsumes_true E n M c d); auto. apply HT; simpl; auto.
Qed.

(** More precisely: D contains an instance of C, or C is a positive unit equation and D contains an
    equation between two terms that this unit makes equal. *)
Theorem C15_subsumed_clause_contains_instance : forall E fuel c d,
  clause_ok E c -> clause_ok E d -> clause_subsumes E fuel c d = Ans true ->
  multiset_subsumes (srt E) c d \/
  exists l e, c = [l] /\ In e d /\ pos l = true /\ pos e = true /\ eq_by (srt E) l (lt e) (rt e).
Proof.
  intros E n c d HC HD H. pose proof (clause_subsumes_ok E n c d HC HD) as X. rewrite H in X.
  destruct X as [X|[l [e [A [B [C [D F]]]]]]]; auto. right. exists l, e. rewrite C. auto.
Qed.

(** The test returns: fuel as large as the clauses is enough. *)
Theorem C15_test_answers : forall E fuel c d,
  clause_ok E c -> clause_ok E d -> csize c + csize d < fuel -> exists b, clause_subsumes E fuel c d = Ans b.
Proof.
  intros E n c d HC HD H. pose proof (clause_subsumes_ok E n c d HC HD) as X.
  destruct (clause_subsumes E n c d) as [b| |]; [eauto| |contradiction].
  exfalso. apply X. split; apply fuel_ok_max; lia.
Qed.

(** Forward subsumption with a set: the reported clause is in the set and entails the clause; no
    clause is reported only if none of them passes the test. *)
Theorem C15_forward_subsumption : forall E fuel set d,
  clause_ok E d -> Forall (clause_ok E) set ->
  match set_subsumes E fuel set d with
  | Found c => In c set /\ follows E [c] d
  | NotFound => forall c, In c set -> clause_subsumes E fuel c d = Ans false
  | FNoFuel => exists c, In c set /\ fuel <= csize c + csize d
  | FUndef => False
  end.
Proof.
  intros E n set d HD HS. pose proof (set_subsumes_ok E n d HD set HS) as X. destruct (set_subsumes E n set d) as [c| | |] eqn:Q; auto.
  - destruct X as [A B]. split; auto. apply (C15_subsumed_clause_follows E n); auto. rewrite Forall_forall in HS. auto.
  - clear X. revert Q HS. induction set as [|c set IH]; intros Q HS; cbn [set_subsumes] in Q; [discriminate|]. inversion HS; subst.
    destruct (Nat.le_gt_cases n (csize c + csize d)) as [L|L]; [exists c; simpl; auto|].
    destruct (C15_test_answers E n c d H1 HD L) as [b B]. rewrite B in Q. destruct b; [discriminate|].
    destruct (IH Q H2) as [c' [I F]]. exists c'. simpl; auto.
Qed.

(** Backward subsumption: the next clause reported is in the set and is entailed. *)
Theorem C15_backward_subsumption : forall E fuel c set,
  clause_ok E c -> Forall (clause_ok E) set ->
  match find_subsumed E fuel c set with
  | Found d => In d set /\ follows E [c] d
  | NotFound => forall d, In d set -> clause_subsumes E fuel c d = Ans false
  | FNoFuel => exists d, In d set /\ fuel <= csize c + csize d
  | FUndef => False
  end.
Proof.
  intros E n c set HC HS. pose proof (find_subsumed_ok E n c HC set HS) as X. destruct (find_subsumed E n c set) as [d| | |] eqn:Q; auto.
  - destruct X as [A B]. split; auto. apply (C15_subsumed_clause_follows E n); auto. rewrite Forall_forall in HS. auto.
  - clear X. revert Q HS. induction set as [|d set IH]; intros Q HS; cbn [find_subsumed] in Q; [discriminate|]. inversion HS; subst.
    destruct (Nat.le_gt_cases n (csize c + csize d)) as [L|L]; [exists d; simpl; auto|].
    destruct (C15_test_answers E n c d HC H1 L) as [b B]. rewrite B in Q. destruct b; [discriminate|].
    destruct (IH Q H2) as [c' [I F]]. exists c'. simpl; auto.
Qed.

(** Subsumption by a set of unit clauses (each given by its literal). *)
Definition unit_clauses (units : list upos) : list clause := map (fun p => [ulit p]) units.

Lemma all_true_units E M units : (forall c, In c (unit_clauses units) -> clause_true (srt E) M c) -> all_true E M units.
Proof. intros H u Hu. apply H. unfold unit_clauses. apply in_map_iff. eauto. Qed.

Definition usize (units : list upos) : nat := csize (map ulit units).

Lemma usize_fuel n units : usize units < n -> units_fuel n units.
Proof. intros H. apply fuel_ok_max in H. rewrite Forall_map in H. exact H. Qed.
Lemma csize_lits n c : csize c <= n -> Forall (fun e => size (lt e) <= n) c.
Proof. intros H. apply Forall_forall. intros e He. apply csize_in in He. unfold lsize in He. lia. Qed.

Theorem C15_unit_subsumption : forall E fuel units c,
  units_ok E units -> clause_ok E c -> usize units + csize c < fuel ->
  match unit_set_subsumes E fuel false units c with
  | Found p => In p units /\ follows E [[ulit p]] c
  | NotFound => True
  | _ => False
  end.
Proof.
  intros E n units c HU HC HF. pose proof (unit_set_subsumes_ok E n false units HU c HC) as X.
  destruct (unit_set_subsumes E n false units c) as [p| | |]; auto.
  - destruct X as [A B]. split; auto. intros M HM HT. apply B; auto. apply HT. simpl; auto.
  - apply X. split; [apply usize_fuel; lia|apply csize_lits; lia].
Qed.

(** With --strong-forward-subsumption several units may be needed: the clause follows from the set, *)
Theorem C15_strong_unit_subsumption : forall E fuel units c,
  units_ok E units -> clause_ok E c -> usize units + csize c < fuel ->
  match unit_set_subsumes E fuel true units c with
  | Found p => In p units /\ follows E (unit_clauses units) c
  | NotFound => True
  | _ => False
  end.
Proof.
  intros E n units c HU HC HF. pose proof (unit_set_subsumes_ok E n true units HU c HC) as X.
  destruct (unit_set_subsumes E n true units c) as [p| | |]; auto.
  - destruct X as [A B]. split; auto. intros M HM HT. apply B; auto. apply all_true_units; auto.
  - apply X. split; [apply usize_fuel; lia|apply csize_lits; lia].
Qed.

(** but not always from the one unit that is reported as the subsumer. *)
Definition M1 : structure := {| dom := nat;
  ifun := fun f args => match f with
          | 1 => 1 | 2 => 0
          | 8 => if Nat.even (nth 0 args 0) then 1 else 0
          | 10 => if Nat.leb (nth 0 args 0) (nth 1 args 0) then 1 else 0
          | 6 => Datatypes.S (Datatypes.S (nth 0 args 0))
          | 7 => nth 0 args 0 + nth 1 args 0
          | 9 => nth 0 args 0 + nth 1 args 0
          | 3 | 4 => 3
          | _ => f
          end;
  isort := fun s d => match s with 0 => d = 0 \/ d = 1 | _ => True end |}.
Lemma M1_ok : model_ok S0 dist0 M1.
Proof.
  constructor.
  - intros f ds _. destruct f as [|[|[|[|[|[|[|[|[|[|[|f]]]]]]]]]]]; cbn; auto.
    + destruct (Nat.even _); auto.
    + destruct (Nat.leb _ _); auto.
  - intros [|s]; cbn; [exists 0; auto | exists 0; auto].
  - cbn. intros d [-> | ->]; auto.
  - cbn. discriminate.
  - intros d d'. cbn in *. destruct (Nat.eq_dec d d'); auto.
  - unfold dist0. intros f g Hf Hg N. apply orb_true_iff in Hf. apply orb_true_iff in Hg. rewrite !Nat.eqb_eq in *.
    destruct Hf as [-> | ->], Hg as [-> | ->]; cbn; congruence.
Qed.

Theorem C15_strong_reported_unit_insufficient_refuted : exists E units c p,
  units_ok E units /\ clause_ok E c /\ unit_set_subsumes E 100 true units c = Found p /\ ~ follows E [[ulit p]] c.
Proof.
  exists E0, [{| ulit := eq0 a0 b0; uleft := true |}; {| ulit := eq0 a0 c0; uleft := true |}], [eq0 (g0 a0 a0) (g0 b0 c0)], {| ulit := eq0 a0 b0; uleft := true |}.
  split; [|split; [apply clause_okb; reflexivity|split; [vm_compute; reflexivity|]]].
  - apply (proj1 (Forall_map ulit (eqn_ok E0) _)). apply clause_okb. reflexivity.
  - intros H. specialize (H M1 M1_ok). cbn in H.
    assert (R : respects S0 M1 (fun _ => 0)) by (intros x; exact I).
    specialize (H ltac:(intros c [<-|[]] v Hv; left; reflexivity) _ R).
    inversion H as [? ? X|? ? X]; [cbv in X; discriminate|inversion X].
Qed.

(** p(X) | f(X) = b subsumes f(a) = b | q(a,b) | p(a); X=f(X) (as a unit) subsumes g(c,a) = g(c,f(a)). *)
Example C15_example :
  let c := [at0 (p0 X0); eq0 (f0 X0) b0] in
  let d := sort_lits [eq0 (f0 a0) b0; nat0 (q0 a0 b0); at0 (p0 a0)] in
  clause_ok E0 c /\ clause_ok E0 d /\ clause_subsumes E0 30 c d = Ans true
  /\ clause_subsumes E0 30 [at0 (p0 X0); eq0 (f0 X0) X0] d = Ans false
  /\ clause_subsumes E0 30 [eq0 X0 (f0 X0)] [nat0 (p0 b0); eq0 (g0 c0 a0) (g0 c0 (f0 a0))] = Ans true.
Proof. repeat split; try (apply clause_okb; reflexivity); vm_compute; reflexivity. Qed.

(** ** C16: no multiset subsumption is missed *)

(** Sorting gives clauses as the test expects them. *)
Theorem C16_sorting : forall c, Permutation (sort_lits c) c /\ subsume_ordered (sort_lits c) = true.
Proof. intros c. split; [apply sort_lits_perm|apply sort_lits_sorted]. Qed.

(** For sorted, oriented clauses the test finds every multiset subsumption by the empty clause, a
    clause of two or more literals or an oriented unit (this includes every non-equational one). *)
Theorem C16_finds_every_subsumption : forall E (gt : term -> term -> Prop) fuel c d,
  fo_sorts (srt E) (pp E) ->
  (forall x, vsort (srt E) x <> fres (srt E) true_code) ->
  (forall s t u, wfsubst (srt E) s -> wf (srt E) t -> wf (srt E) u -> gt t u -> gt (app s t) (app s u)) ->
  clause_ok E c -> clause_ok E d -> Forall (norm_lit gt) c -> Forall (norm_lit gt) d ->
  subsume_ordered d = true -> csize c + csize d < fuel ->
  (forall l, c = [l] -> ori l = true) ->
  multiset_subsumes (srt E) c d -> clause_subsumes E fuel c d = Ans true.
Proof.
  intros E gt n c d HF HV ST HC HD NC ND HS Hn HO H.
  destruct (C15_test_answers E n c d HC HD Hn) as [b B]. rewrite B. destruct b; auto. exfalso.
  pose proof (clause_subsumes_ok E n c d HC HD) as X. rewrite B in X. apply X; auto.
  - split; auto. split; [|apply subsume_ordered_sorted; auto]. intros l e Il Ie.
    unfold clause_ok in *. rewrite Forall_forall in *. apply (compat_norm E gt l e); auto.
  - destruct c as [|l [|]]; auto.
Qed.

(** For unoriented unit equations this fails: matching is abandoned when the left side matches but
    the right side does not, although the other direction would succeed. *)
Theorem C16_unoriented_unit_refuted : exists E c d,
  clause_ok E c /\ clause_ok E d /\ subsume_ordered d = true /\ multiset_subsumes (srt E) c d
  /\ forall fuel, csize c + csize d < fuel -> clause_subsumes E fuel c d = Ans false.
Proof.
  exists E0, [eq0 (g0 X0 a0) (g0 b0 Y0)], [eq0 (g0 b0 a0) (g0 c0 a0)].
  split; [apply clause_okb; reflexivity|]. split; [apply clause_okb; reflexivity|]. split; [reflexivity|]. split.
  - exists (fun x => if Nat.eqb x 0 then c0 else if Nat.eqb x 2 then a0 else Var x), [eq0 (g0 b0 a0) (g0 c0 a0)], [].
    split; [|split].
    + intros x. destruct (Nat.eqb x 0); [split; reflexivity|]. destruct (Nat.eqb x 2); split; reflexivity.
    + simpl. auto.
    + constructor; [|constructor]. split; [reflexivity|]. right. split; reflexivity.
  - intros n Hn. rewrite (clause_subsumes_mono E0 13 n); [vm_compute; reflexivity|cbn in Hn; lia|vm_compute; discriminate].
Qed.

Definition gt0 (t u : term) : Prop := exists f a, t = Fun f a /\ In u a.
Example C16_example :
  let o l r := mkeqn l r true true false false false false false in
  let c := [nat0 (p0 Y0); o (f0 X0) X0] in
  let d := [o (f0 a0) a0; eq0 a0 c0; nat0 (p0 (f0 b0)); nat0 (p0 c0)] in
  (forall s t u, wfsubst S0 s -> wf S0 t -> wf S0 u -> gt0 t u -> gt0 (app s t) (app s u))
  /\ (forall x, vsort S0 x <> fres S0 true_code)
  /\ clause_ok E0 c /\ clause_ok E0 d /\ Forall (norm_lit gt0) c /\ Forall (norm_lit gt0) d /\ subsume_ordered (sort_lits d) = true
  /\ multiset_subsumes S0 c (sort_lits d) /\ clause_subsumes E0 40 c (sort_lits d) = Ans true.
Proof.
  cbv zeta. repeat match goal with |- _ /\ _ => split end; try (apply clause_okb; reflexivity); try reflexivity.
  - intros s t u _ _ _ [f [a [-> I]]]. exists f, (map (app s) a). split; auto. apply in_map; auto.
  - discriminate.
  - constructor; [|constructor; [|constructor]]; split; cbn; try discriminate.
    + split; [discriminate|]. intros [f [a [E I]]]. injection E as <- <-. destruct I as [I|[]]; discriminate.
    + intros [f [a [E I]]]. injection E as <- <-. destruct I.
    + split; auto. intros _. exists 6, [X0]. simpl; auto.
    + intros [f [a [E I]]]. discriminate.
  - constructor; [|constructor; [|constructor; [|constructor; [|constructor]]]]; split; cbn; try discriminate.
    + split; auto. intros _. exists 6, [a0]. simpl; auto.
    + intros [f [a [E I]]]. injection E as <- <-. destruct I.
    + split; [discriminate|]. intros [f [a [E I]]]. injection E as <- <-. destruct I.
    + intros [f [a [E I]]]. injection E as <- <-. destruct I.
    + split; [discriminate|]. intros [f [a [E I]]]. injection E as <- <-. destruct I as [I|[]]; discriminate.
    + intros [f [a [E I]]]. injection E as <- <-. destruct I.
    + split; [discriminate|]. intros [f [a [E I]]]. injection E as <- <-. destruct I as [I|[]]; discriminate.
    + intros [f [a [E I]]]. injection E as <- <-. destruct I.
  - exists (fun x => if Nat.eqb x 0 then a0 else if Nat.eqb x 2 then c0 else Var x).
    exists [nat0 (p0 c0); mkeqn (f0 a0) a0 true true false false false false false], [eq0 a0 c0; nat0 (p0 (f0 b0))].
    split; [|split].
    + intros x. destruct (Nat.eqb x 0); [split; reflexivity|]. destruct (Nat.eqb x 2); split; reflexivity.
    + eapply perm_trans; [apply sort_lits_perm|].
      apply (Permutation_trans (l' := [mkeqn (f0 a0) a0 true true false false false false false; nat0 (p0 c0); eq0 a0 c0; nat0 (p0 (f0 b0))])); [|apply perm_swap].
      apply perm_skip. eapply perm_trans; [apply perm_skip, perm_swap|]. apply perm_swap.
    + constructor; [split; [reflexivity|left; split; reflexivity]|]. constructor; [|constructor]. split; [reflexivity|left; split; reflexivity].
Qed.

(** ** C18: condensation *)
Theorem C18_condensation_equivalent : forall E fuel c d,
  env_ok E -> clause_ok E c -> condense E fuel c = Condensed d ->
  clause_ok E d /\ length d <= length c /\ follows E [c] d /\ follows E [d] c.
Proof.
  intros E n c d HE HC H. destruct (condense_ok E n HE c d HC H) as [A [B C]]. split; auto. split; auto.
  split; intros M HM HT; apply (C M HM); apply HT; simpl; auto.
Qed.

(** Every single step gives an equivalent, sorted and strictly shorter clause; *)
Theorem C18_step_shortens : forall E fuel c d,
  env_ok E -> clause_ok E c -> condense_once E fuel c = Condensed d ->
  clause_ok E d /\ length d < length c /\ subsume_ordered d = true /\ follows E [c] d /\ follows E [d] c.
Proof.
  intros E n c d HE HC H. destruct (condense_once_ok E n HE c d HC H) as [A [B [C D]]]. split; auto. split; auto. split; auto.
  split; intros M HM HT; apply (D M HM); apply HT; simpl; auto.
Qed.

(** so condensation terminates: with enough fuel it returns a result, always the same. *)
Theorem C18_condensation_returns : forall E c,
  env_ok E -> clause_ok E c -> exists d, eventually (fun n => condense E n c) (Condensed d).
Proof.
  intros E c HE HC. destruct (condense_returns E c HE HC) as [r [Hr N]]. destruct r as [d| |]; [eauto| |congruence].
  exfalso. destruct Hr as [k Hk]. specialize (Hk k (le_n k)). unfold condense in Hk. destruct (_ || _); [|discriminate].
  revert Hk. generalize (sort_lits c), (S (length c)). intros c' m. revert c'.
  induction m as [|m IH]; intros c' Q; cbn [condense_loop] in Q; [discriminate|]. destruct (condense_once E k c'); try discriminate. eauto.
Qed.

(** What comes out of the loop cannot be condensed further. *)
Theorem C18_result_is_condensed : forall E fuel c d,
  env_ok E -> clause_ok E c -> 1 < pos_no c \/ 1 < neg_no c -> condense E fuel c = Condensed d -> condense_once E fuel d = NotCondensed.
Proof.
  intros E n c d HE HC HP H. unfold condense in H.
  replace (Nat.ltb 1 (pos_no c) || Nat.ltb 1 (neg_no c)) with true in H.
  2:{ symmetry. apply orb_true_iff. rewrite !Nat.ltb_lt. exact HP. }
  destruct (condense_loop_ok E n HE _ _ _ (sort_lits_ok E c HC) (sort_lits_sorted c) H) as [_ [_ [_ [_ F]]]]. exact F.
Qed.

(** q(X,a) | q(Y,a) | p(Y) condenses to a variant of q(Y,a) | p(Y). *)
Example C18_example :
  clause_ok E0 [at0 (q0 X0 a0); at0 (q0 Y0 a0); at0 (p0 Y0)]
  /\ condense E0 40 [at0 (q0 X0 a0); at0 (q0 Y0 a0); at0 (p0 Y0)] = Condensed [at0 (q0 X0 a0); at0 (p0 X0)]
  /\ condense E0 40 [at0 (q0 X0 a0); at0 (q0 b0 Y0)] = Condensed (sort_lits [at0 (q0 X0 a0); at0 (q0 b0 Y0)]).
Proof. split; [apply clause_okb; reflexivity|]. split; vm_compute; reflexivity. Qed.

(** ** C19: simplify-reflect and simplification with units *)

(** In every model in which the used units are true, the clause before and after have the same truth
    value under every valuation; only literals are dropped, one per reported unit. *)
Theorem C19_positive_simplify_reflect : forall E fuel units c,
  units_ok E units -> clause_ok E c -> usize units + csize c < fuel ->
  exists c' used, pos_simplify_reflect E fuel false units c = Some (c', used)
    /\ (forall p, In p used -> In p units) /\ length c' + length used = length c /\ clause_ok E c'
    /\ follows E (c :: unit_clauses used) c' /\ follows E [c'] c.
Proof.
  intros E n units c HU HC HF. pose proof (pos_sr_ok E n false units HU c HC) as X.
  destruct (pos_simplify_reflect E n false units c) as [[c' used]|] eqn:Q.
  - destruct X as [A [B [C D]]]. exists c', used. split; auto. split; auto. split; auto. split; auto. split.
    + intros M HM HT. specialize (D M HM (all_true_units E M used (fun d Hd => HT d (or_intror Hd)))).
      apply (lits_equivalent_true E M c c'); auto. apply HT; simpl; auto.
    + intros M HM HT v Hv. specialize (HT c' (or_introl eq_refl) v Hv).
      clear - Q HT. revert c' used Q HT. induction c as [|h c IH]; intros c' used Q HT; cbn [pos_simplify_reflect] in Q.
      * injection Q as <- <-. auto.
      * destruct (if negb (pos h) then find_pos_unit E n false units (lt h) (rt h) else NotFound) as [p| | |]; try discriminate;
          destruct (pos_simplify_reflect E n false units c) as [[r us]|]; try discriminate; injection Q as <- <-.
        -- right. eauto.
        -- inversion HT; subst; [left; auto|right; eauto].
  - exfalso. apply X. split; [apply usize_fuel; lia|apply csize_lits; lia].
Qed.

Theorem C19_positive_simplify_reflect_strong : forall E fuel units c,
  units_ok E units -> clause_ok E c -> usize units + csize c < fuel ->
  exists c' used, pos_simplify_reflect E fuel true units c = Some (c', used)
    /\ length c' + length used = length c /\ clause_ok E c'
    /\ follows E (c :: unit_clauses units) c' /\ follows E [c'] c.
Proof.
  intros E n units c HU HC HF. pose proof (pos_sr_ok E n true units HU c HC) as X.
  destruct (pos_simplify_reflect E n true units c) as [[c' used]|] eqn:Q.
  - destruct X as [A [B [C D]]]. exists c', used. split; auto. split; auto. split; auto. split.
    + intros M HM HT. specialize (D M HM (all_true_units E M units (fun d Hd => HT d (or_intror Hd)))).
      apply (lits_equivalent_true E M c c'); auto. apply HT; simpl; auto.
    + intros M HM HT v Hv. specialize (HT c' (or_introl eq_refl) v Hv).
      clear - Q HT. revert c' used Q HT. induction c as [|h c IH]; intros c' used Q HT; cbn [pos_simplify_reflect] in Q.
      * injection Q as <- <-. auto.
      * destruct (if negb (pos h) then find_pos_unit E n true units (lt h) (rt h) else NotFound) as [p| | |]; try discriminate;
          destruct (pos_simplify_reflect E n true units c) as [[r us]|]; try discriminate; injection Q as <- <-.
        -- right. eauto.
        -- inversion HT; subst; [left; auto|right; eauto].
  - exfalso. apply X. split; [apply usize_fuel; lia|apply csize_lits; lia].
Qed.

Theorem C19_negative_simplify_reflect : forall E fuel units c,
  units_ok E units -> clause_ok E c -> usize units + csize c < fuel ->
  exists c' used, neg_simplify_reflect E fuel units c = Some (c', used)
    /\ (forall p, In p used -> In p units) /\ length c' + length used = length c /\ clause_ok E c'
    /\ follows E (c :: unit_clauses used) c' /\ follows E [c'] c.
Proof.
  intros E n units c HU HC HF. pose proof (neg_sr_ok E n units HU c HC) as X.
  destruct (neg_simplify_reflect E n units c) as [[c' used]|] eqn:Q.
  - destruct X as [A [B [C D]]]. exists c', used. split; auto. split; auto. split; auto. split; auto. split.
    + intros M HM HT. specialize (D M HM (all_true_units E M used (fun d Hd => HT d (or_intror Hd)))).
      apply (lits_equivalent_true E M c c'); auto. apply HT; simpl; auto.
    + intros M HM HT v Hv. specialize (HT c' (or_introl eq_refl) v Hv).
      clear - Q HT. revert c' used Q HT. induction c as [|h c IH]; intros c' used Q HT; cbn [neg_simplify_reflect] in Q.
      * injection Q as <- <-. auto.
      * destruct (if pos h then find_top E n units (Some false) (lt h) (rt h) else NotFound) as [p| | |]; try discriminate;
          destruct (neg_simplify_reflect E n units c) as [[r us]|]; try discriminate; injection Q as <- <-.
        -- right. eauto.
        -- inversion HT; subst; [left; auto|right; eauto].
  - exfalso. apply X. apply usize_fuel; lia.
Qed.

(** Simplification with a set of units: either the clause is entailed by one of them, or the result is
    equivalent to the clause in all models of the units. *)
Theorem C19_simplify_with_unit_set : forall E fuel full units c,
  units_ok E units -> clause_ok E c -> usize units + csize c < fuel ->
  match simplify_with_units E fuel full units [] c with
  | Some (inl p) => In p units /\ follows E [[ulit p]] c
  | Some (inr c') => clause_ok E c' /\ follows E (c :: unit_clauses units) c' /\ follows E (c' :: unit_clauses units) c
  | None => False
  end.
Proof.
  intros E n full units c HU HC HF. pose proof (simplify_with_units_ok E n full units HU c [] HC ltac:(constructor)) as X.
  destruct (simplify_with_units E n full units [] c) as [[p|c']|].
  - destruct X as [A B]. split; auto. intros M HM HT. apply B; auto. apply HT; simpl; auto.
  - destruct X as [A B]. split; auto. split; intros M HM HT;
      specialize (B M HM (all_true_units E M units (fun d Hd => HT d (or_intror Hd)))); cbn [rev Datatypes.app] in B;
      apply (lits_equivalent_true E M c c'); auto; apply HT; simpl; auto.
  - apply X. split; [apply usize_fuel; lia|apply csize_lits; lia].
Qed.

(** Contextual simplify-reflect: equivalent in all models of the clauses reported as used. *)
Theorem C19_contextual_simplify_reflect : forall E fuel set c,
  Forall (clause_ok E) set -> clause_ok E c -> Forall (fun s => csize s < fuel) set -> csize c < fuel ->
  exists c' used, contextual_sr E fuel set c = Some (c', used)
    /\ (forall s, In s used -> In s set) /\ clause_ok E c'
    /\ follows E (c :: used) c' /\ follows E (c' :: used) c.
Proof.
  intros E n set c HS HC F1 F2. pose proof (contextual_sr_ok E n set c HS HC) as X.
  destruct (contextual_sr E n set c) as [[c' used]|].
  - destruct X as [A [B C]]. exists c', used. split; auto. split; auto. split; auto.
    split; intros M HM HT; specialize (C M HM (fun d Hd => HT d (or_intror Hd))); apply (lits_equivalent_true E M c c'); auto; apply HT; simpl; auto.
  - exfalso. apply X. split; [|apply fuel_ok_max; auto]. eapply Forall_impl; [|exact F1]. intros s Hs. apply fuel_ok_max; auto.
Qed.

Example C19_example :
  let u1 := {| ulit := eq0 (f0 X0) X0; uleft := true |} in
  let u2 := {| ulit := nat0 (p0 (f0 a0)); uleft := true |} in
  let c := [ne0 (g0 (f0 b0) c0) (g0 b0 c0); at0 (p0 (f0 a0)); at0 (p0 b0)] in
  units_ok E0 [u1; u2] /\ clause_ok E0 c
  /\ pos_simplify_reflect E0 40 false [u1; u2] c = Some ([at0 (p0 (f0 a0)); at0 (p0 b0)], [u1])
  /\ neg_simplify_reflect E0 40 [u1; u2] c = Some ([ne0 (g0 (f0 b0) c0) (g0 b0 c0); at0 (p0 b0)], [u2])
  /\ simplify_with_units E0 40 true [u1; u2] [] c = Some (inr [at0 (p0 b0)])
  /\ contextual_sr E0 40 [[at0 (p0 X0); nat0 (q0 X0 a0)]] [at0 (p0 b0); at0 (q0 b0 a0)] = Some ([at0 (p0 b0)], [[at0 (p0 X0); nat0 (q0 X0 a0)]]).
Proof.
  cbv zeta. split; [apply (proj1 (Forall_map ulit (eqn_ok E0) _)); apply clause_okb; reflexivity|].
  split; [apply clause_okb; reflexivity|]. repeat split; vm_compute; reflexivity.
Qed.

Print Assumptions C15_subsumed_clause_follows.
Print Assumptions C15_subsumed_clause_contains_instance.
Print Assumptions C15_test_answers.
Print Assumptions C15_forward_subsumption.
Print Assumptions C15_backward_subsumption.
Print Assumptions C15_unit_subsumption.
Print Assumptions C15_strong_unit_subsumption.
Print Assumptions C15_strong_reported_unit_insufficient_refuted.
Print Assumptions C16_sorting.
Print Assumptions C16_finds_every_subsumption.
Print Assumptions C16_unoriented_unit_refuted.
Print Assumptions C18_condensation_equivalent.
Print Assumptions C18_step_shortens.
Print Assumptions C18_condensation_returns.
Print Assumptions C18_result_is_condensed.
Print Assumptions C19_positive_simplify_reflect.
Print Assumptions C19_positive_simplify_reflect_strong.
Print Assumptions C19_negative_simplify_reflect.
Print Assumptions C19_simplify_with_unit_set.
Print Assumptions C19_contextual_simplify_reflect.
