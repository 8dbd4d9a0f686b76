(** * Derivations as they are recorded are well-formed: proofs.  See Derivation.v. *)
From Coq Require Import String Ascii List ZArith NArith Lia Bool Arith.
From Verif Require Import Sig Derivation DerivationProofs DerivMain.
Import ListNotations.
Local Open Scope nat_scope.
Local Open Scope list_scope.

Definition par_of (ac : list nat) (s : option (list cell)) : option (list node) := parents ac (fun _ => s) (Cl 0).
Lemma par_eq : forall ac H n, parents ac H n = par_of ac (H n).
Proof. reflexivity. Qed.
Definition strong (ac : list nat) (l : list cell) : Prop :=
  l = [CInt DCIntroDef] \/
  exists fs, l = encode fs /\ fs <> [] /\ Forall fits fs /\ premises ac fs <> None /\
    (forall f, hd_error fs = Some f -> op f <> DCCnfAddArg) /\ Forall code_ok fs.
Lemma strong_ok : forall ac l, strong ac l -> stack_ok ac l.
Proof.
  intros ac l [->|[fs [-> [N [F [P [HD C]]]]]]].
  - exists [mkfr DCIntroDef (ARaw None) ANone]. split; [reflexivity|]. split; [discriminate|]. split; [discriminate|]. split.
    + intros f E; inversion E; discriminate.
    + constructor; [|constructor]. cbn. split; [left; reflexivity|]. split; [reflexivity|]. intros _. split; reflexivity.
  - exists fs. split; [now apply frames_encode|]. split; [exact N|]. split; [exact P|]. split; [exact HD|exact C].
Qed.
Lemma premises_app : forall ac fs gs, premises ac (fs ++ gs) = match premises ac fs, premises ac gs with Some a, Some b => Some (a ++ b) | _, _ => None end.
Proof.
  intros ac fs gs. induction fs as [|f fs IH]; cbn [premises app]; [now destruct (premises ac gs)|].
  destruct (ac_parents ac f); [|reflexivity]. rewrite IH. destruct (premises ac fs), (premises ac gs); try reflexivity. now rewrite !app_assoc.
Qed.
Lemma premises_more : forall ac c fs ps, premises ac fs = Some ps -> premises (ac ++ [c]) fs = Some ps.
Proof.
  intros ac c. induction fs as [|f fs IH]; cbn [premises]; intros ps E; [exact E|].
  assert (A : forall l, ac_parents ac f = Some l -> ac_parents (ac ++ [c]) f = Some l).
  { intros l X. unfold ac_parents in *. destruct (N.eqb (op f) DCACRes); [|exact X].
    destruct (arg1 f) as [| |[[k|]|]]; try discriminate. destruct (Nat.leb_spec (N.to_nat k) (length ac)); [|discriminate].
    rewrite app_length. replace (Nat.leb (N.to_nat k) (length ac + length [c])) with true by (symmetry; apply Nat.leb_le; cbn; lia).
    rewrite firstn_app. replace (N.to_nat k - length ac) with 0 by lia. cbn. now rewrite app_nil_r. }
  destruct (ac_parents ac f) as [l|]; [|discriminate]. rewrite (A l eq_refl). destruct (premises ac fs) as [m|]; [|discriminate].
  now rewrite (IH m eq_refl).
Qed.
Lemma push_par : forall ac old f l, (forall s, old = Some s -> strong ac s) -> old <> Some [CInt DCIntroDef] -> fits f -> code_ok f ->
  (op f = DCCnfAddArg -> old <> None) -> ac_parents ac f = Some l ->
  let s := match old with Some l => l | None => [] end ++ encode [f] in
  strong ac s /\ exists ps, par_of ac (Some s) = Some ps /\
    forall p, In p ps <-> (exists qs, par_of ac old = Some qs /\ In p qs) \/ own ac f p.
Proof.
  intros ac old f l ST NI FI CO HA A s.
  assert (X : exists fs, match old with Some l => l | None => [] end = encode fs /\ Forall fits fs /\ premises ac fs <> None /\
     (forall g, hd_error (fs ++ [f]) = Some g -> op g <> DCCnfAddArg) /\ Forall code_ok fs /\ (fs = [] <-> old = None)).
  { destruct old as [o|].
    - destruct (ST o eq_refl) as [->|[fs [-> [N [F [P [HD C]]]]]]]; [contradiction|]. exists fs. split; [reflexivity|]. split; [exact F|].
      split; [exact P|]. split; [|split; [exact C|split; [intro; contradiction|discriminate]]].
      intros g E. apply HD. destruct fs; [contradiction|exact E].
    - exists []. split; [reflexivity|]. split; [constructor|]. split; [discriminate|]. split; [|split; [constructor|tauto]].
      intros g E. cbn in E. inversion E; subst. intro O. now apply HA. }
  destruct X as [fs [E [F [P [HD [C N]]]]]]. unfold s. rewrite E. clear s.
  destruct (premises ac fs) as [ps0|] eqn:P0; [|contradiction].
  assert (EN : encode fs ++ encode [f] = encode (fs ++ [f])) by (unfold encode; now rewrite flat_map_app).
  assert (P1 : premises ac (fs ++ [f]) = Some (ps0 ++ arg_node (arg1 f) ++ arg_node (arg2 f) ++ l ++ [])).
  { rewrite premises_app, P0. cbn [premises]. now rewrite A. }
  assert (FF : Forall fits (fs ++ [f])) by (apply Forall_app; split; [exact F|constructor; [exact FI|constructor]]).
  rewrite EN. split.
  - right. exists (fs ++ [f]). split; [reflexivity|]. split; [destruct fs; discriminate|]. split; [exact FF|]. rewrite P1. split; [discriminate|].
    split; [exact HD|]. apply Forall_app; split; [exact C|constructor; [exact CO|constructor]].
  - exists (popped (ps0 ++ arg_node (arg1 f) ++ arg_node (arg2 f) ++ l ++ [])). split.
    { unfold par_of, parents. rewrite (frames_encode _ FF), P1. reflexivity. }
    intro p. rewrite popped_in, !in_app_iff. cbn [In].
    assert (OLD : In p ps0 <-> exists qs, par_of ac old = Some qs /\ In p qs).
    { destruct old as [o|].
      - subst o. unfold par_of, parents. rewrite (frames_encode _ F), P0. split; [intro I; exists (popped ps0); split; [reflexivity|now apply popped_in]|].
        intros [qs [Q I]]. injection Q as <-. exact (proj1 (popped_in p ps0) I).
      - destruct N as [_ N]. rewrite (N eq_refl) in P0. cbn in P0. inversion P0; subst. split; [intros []|].
        intros [qs [Q I]]. unfold par_of in Q. cbn in Q. inversion Q; subst. destruct I. }
    rewrite OLD. unfold own. rewrite A. split.
    + intros [I|[I|[I|[I|[]]]]]; auto. right. right. right. eauto.
    + intros [I|[I|[I|[m [M I]]]]]; auto. inversion M; subst. tauto.
Qed.

Section Rank.
Variable ac : list nat.
Variable H : heap.
Variable rank : node -> nat.
Hypothesis RK : forall n ps p, parents ac H n = Some ps -> In p ps -> rank p < rank n.
Lemma rank_raise : forall n s ps, par_of ac s = Some ps -> ~ In n ps -> (forall m qs, parents ac H m = Some qs -> ~ In n qs) ->
  exists rank', forall m qs p, parents ac (set_stack H n s) m = Some qs -> In p qs -> rank' p < rank' m.
Proof.
  intros n s ps E N U. exists (fun m => if node_eqb m n then S (list_max (map rank ps)) else rank m).
  intros m qs p Q I. rewrite par_eq in Q. destruct (node_dec m n) as [->|NE].
  - rewrite set_same in Q. rewrite Q in E. inversion E; subst. rewrite eqb_refl, eqb_neq by (intros ->; contradiction).
    assert (rank p <= list_max (map rank ps)); [|lia].
    assert (F : Forall (fun k => k <= list_max (map rank ps)) (map rank ps)) by (now apply list_max_le).
    rewrite Forall_forall in F. apply F. now apply in_map.
  - rewrite set_other in Q by assumption. rewrite <- par_eq in Q. rewrite (eqb_neq m n NE), eqb_neq; [eauto|].
    intros ->. exact (U m qs Q I).
Qed.
Lemma rank_same : forall n s, (forall qs p, par_of ac s = Some qs -> In p qs -> exists ps, parents ac H n = Some ps /\ In p ps) ->
  forall m qs p, parents ac (set_stack H n s) m = Some qs -> In p qs -> rank p < rank m.
Proof.
  intros n s E m qs p Q I. rewrite par_eq in Q. destruct (node_dec m n) as [->|NE].
  - rewrite set_same in Q. destruct (E qs p Q I) as [ps [P J]]. eauto.
  - rewrite set_other in Q by assumption. rewrite <- par_eq in Q. eauto.
Qed.
Lemma rank_copy : forall c new, (forall m qs, parents ac H m = Some qs -> ~ In (Cl new) qs) -> c <> new ->
  exists rank', forall m qs p, parents ac (archive_copy H c new) m = Some qs -> In p qs -> rank' p < rank' m.
Proof.
  intros c new U NE. exists (fun m => if node_eqb m (Cl new) then 2 * rank (Cl c) else 2 * rank m + 1).
  assert (NC : Cl c <> Cl new) by congruence.
  intros m qs p Q I. unfold archive_copy in Q. rewrite par_eq in Q. destruct (node_dec m (Cl c)) as [->|N1].
  - rewrite set_same in Q. inversion Q; subst. cbn in I. destruct I as [<-|[]]. rewrite eqb_refl, eqb_neq by assumption. lia.
  - rewrite set_other in Q by assumption. destruct (node_dec m (Cl new)) as [->|N2].
    + rewrite set_same in Q. rewrite <- par_eq in Q. rewrite eqb_refl, eqb_neq by (intros ->; exact (U _ _ Q I)).
      pose proof (RK (Cl c) qs p Q I). lia.
    + rewrite set_other in Q by assumption. rewrite <- par_eq in Q. rewrite (eqb_neq m) by assumption. rewrite eqb_neq by (intros ->; exact (U _ _ Q I)).
      pose proof (RK m qs p Q I). lia.
Qed.
End Rank.

Definition hinv (s : list nat * heap) : Prop :=
  (forall n l, snd s n = Some l -> strong (fst s) l) /\
  exists rank : node -> nat, forall n ps p, parents (fst s) (snd s) n = Some ps -> In p ps -> rank p < rank n.
Lemma code_plain : forall o, In o codes -> has Arg1Num o = false /\ has Arg2Num o = false /\ o <> DCACRes.
Proof.
  assert (X : forallb (fun o => negb (has Arg1Num o) && negb (has Arg2Num o) && negb (N.eqb o DCACRes)) codes = true) by (vm_compute; reflexivity).
  intros o I. rewrite forallb_forall in X. specialize (X o I). rewrite !andb_true_iff, !negb_true_iff in X. destruct X as [[X1 X2] X3].
  apply N.eqb_neq in X3. auto.
Qed.
Definition arg_of (cnf op : N) (a : option nat) : arg := match a with Some p => ANode (node_of cnf op p) | None => ANone end.
Lemma arg_of_fits : forall cnf fof num o a, arg_ok cnf fof o a = true -> has num o = false -> arg_fits cnf fof num o (arg_of cnf o a).
Proof.
  intros cnf fof num o a E N. unfold arg_ok, arg_fits, arg_of, node_of in *. rewrite N. destruct a as [p|].
  - destruct (has cnf o); [eauto|]. cbn in E. rewrite E. eauto.
  - rewrite negb_true_iff, orb_false_iff in E. destruct E as [-> ->]. reflexivity.
Qed.
Lemma push_is : forall old o a1 a2, In o codes -> arg_ok Arg1Cnf Arg1Fof o a1 = true -> arg_ok Arg2Cnf Arg2Fof o a2 = true ->
  push_deriv old o a1 a2 = match old with Some l => l | None => [] end ++ encode [mkfr o (arg_of Arg1Cnf o a1) (arg_of Arg2Cnf o a2)].
Proof.
  intros old o a1 a2 I A1 A2. unfold push_deriv. f_equal. cbn. rewrite app_nil_r. f_equal.
  assert (P : forall cnf p, ptr (node_of cnf o p) = p) by (intros cnf p; unfold node_of; now destruct (has cnf o)).
  destruct a1 as [p|]; cbn.
  - rewrite P. destruct a2; cbn; [now rewrite P|reflexivity].
  - destruct a2 as [q|]; [|reflexivity]. exfalso. unfold arg_ok in *. apply (code_args o I) in A2. unfold has1 in A2. rewrite A2 in A1. discriminate.
Qed.
Lemma event_inv : forall s t, hinv s -> event s t -> hinv t.
Proof.
  intros s t [ST [rank RK]] E. destruct E as [ac H n o a1 a2 IO A1 A2 NI AA US|ac H n EN|ac H c NI US|ac H c|ac H c new EN US NE|ac H c new EN US NE];
    unfold hinv; cbn [fst snd] in *.
  - destruct (code_plain o IO) as [N1 [N2 N3]].
    set (f := mkfr o (arg_of Arg1Cnf o a1) (arg_of Arg2Cnf o a2)).
    assert (FI : fits f) by (split; cbn; now apply arg_of_fits).
    assert (CO : code_ok f) by (split; [now right|split; [exact N2|cbn; congruence]]).
    assert (AC : ac_parents ac f = Some []) by (unfold ac_parents; cbn [op f]; apply N.eqb_neq in N3; now rewrite N3).
    rewrite (push_is (H n) o a1 a2 IO A1 A2). fold f.
    destruct (push_par ac (H n) f [] (ST n) NI FI CO AA AC) as [S [ps [P PI]]]. cbn [snd fst]. split.
    + intros m l Q. destruct (node_dec m n) as [->|ND]; [rewrite set_same in Q; inversion Q; subst; exact S|rewrite set_other in Q by assumption; eauto].
    + destruct a1 as [q|] eqn:Q1.
      * destruct US as [US [U1 U2]]; [discriminate|].
        assert (UN : forall m qs, parents ac H m = Some qs -> ~ In n qs) by (intros m qs Q I; apply US; left; eauto).
        eapply rank_raise; eauto. intro I. apply PI in I. destruct I as [[qs [Q I]]|[I|[I|[l [L I]]]]].
        -- exact (UN n qs Q I).
        -- cbn in I. destruct I as [I|[]]. exact (U1 q eq_refl I).
        -- cbn in I. destruct a2 as [q2|]; cbn in I; [|destruct I]. destruct I as [I|[]]. exact (U2 q2 eq_refl I).
        -- rewrite AC in L. inversion L; subst. destruct I.
      * exists rank. apply rank_same; [exact RK|]. intros qs p Q I. rewrite P in Q. inversion Q; subst. apply PI in I.
        destruct I as [I|[I|[I|[l [L I]]]]]; [exact I|destruct I| |].
        -- cbn in I. destruct a2 as [q2|]; cbn in I; [|destruct I]. unfold arg_ok in *. apply (code_args o IO) in A2. unfold has1 in A2. rewrite A2 in A1. discriminate.
        -- rewrite AC in L. inversion L; subst. destruct I.
  - split.
    + intros m l Q. destruct (node_dec m n) as [->|ND]; [rewrite set_same in Q; inversion Q; now left|rewrite set_other in Q by assumption; eauto].
    + exists rank. apply rank_same; [exact RK|]. intros qs p Q I. cbn in Q. inversion Q; subst. destruct I.
  - set (f := mkfr DCACRes (ARaw (Some (CInt (N.of_nat (length ac))))) ANone).
    assert (FI : fits f) by (split; cbn; [exists (CInt (N.of_nat (length ac))); reflexivity|reflexivity]).
    assert (CO : code_ok f) by (split; [left; reflexivity|split; [reflexivity|intros _; split; reflexivity]]).
    assert (AC : ac_parents ac f = Some (map Cl ac)).
    { unfold ac_parents, f. cbn [op arg1]. rewrite N.eqb_refl, Nat2N.id, Nat.leb_refl, firstn_all. reflexivity. }
    assert (AA : op f = DCCnfAddArg -> H (Cl c) <> None) by (cbn; discriminate).
    destruct (push_par ac (H (Cl c)) f (map Cl ac) (ST (Cl c)) NI FI CO AA AC) as [S [ps [P PI]]].
    assert (EQ : push_acres (H (Cl c)) ac = match H (Cl c) with Some l => l | None => [] end ++ encode [f]) by reflexivity.
    rewrite EQ. cbn [snd fst]. split.
    + intros m l Q. destruct (node_dec m (Cl c)) as [->|ND]; [rewrite set_same in Q; inversion Q; subst; exact S|rewrite set_other in Q by assumption; eauto].
    + assert (UN : forall m qs, parents ac H m = Some qs -> ~ In (Cl c) qs) by (intros m qs Q I; apply US; left; eauto).
      eapply rank_raise; eauto. intro I. apply PI in I. destruct I as [[qs [Q I]]|[I|[I|[l [L I]]]]]; [exact (UN _ qs Q I)|destruct I|destruct I|].
      rewrite AC in L. inversion L; subst. apply US. right. apply in_map_iff in I. destruct I as [x [X I]]. inversion X; subst. eauto.
  - assert (SP : forall s, (forall l, s = Some l -> strong ac l) -> par_of (ac ++ [c]) s = par_of ac s).
    { intros [l|] SL; [|reflexivity]. destruct (SL l eq_refl) as [->|[fs [-> [N [F [P [HD C]]]]]]]; [reflexivity|].
      unfold par_of, parents. rewrite (frames_encode _ F). destruct (premises ac fs) as [ps|] eqn:Q; [|contradiction]. now rewrite (premises_more _ _ _ _ Q). }
    split.
    + intros m l Q. destruct (ST m l Q) as [->|[fs [-> [N [F [P [HD C]]]]]]]; [now left|]. right. exists fs.
      destruct (premises ac fs) as [ps|] eqn:PP; [|contradiction]. rewrite (premises_more _ _ _ _ PP).
      split; [reflexivity|]. split; [exact N|]. split; [exact F|]. split; [discriminate|]. split; [exact HD|exact C].
    + exists rank. intros m ps p Q I. rewrite par_eq, SP in Q by (intros l; apply ST). eauto.
  - set (f := mkfr DCCnfQuote (ANode (Cl c)) ANone).
    assert (S : strong ac [CInt DCCnfQuote; CPtr c]).
    { right. exists [f]. split; [reflexivity|]. split; [discriminate|]. split.
      - constructor; [|constructor]. split; cbn; [exists c; reflexivity|reflexivity].
      - split; [discriminate|]. split; [intros g X; inversion X; discriminate|]. constructor; [|constructor].
        split; [right; now left|]. split; [reflexivity|]. cbn. discriminate. }
    unfold archive. split.
    + intros m l Q. destruct (node_dec m (Cl new)) as [->|ND]; [rewrite set_same in Q; inversion Q; subst; exact S|rewrite set_other in Q by assumption; eauto].
    + eapply (rank_raise ac H rank RK (Cl new) _ [Cl c]); [reflexivity| |].
      * intros [X|[]]. congruence.
      * intros m qs Q I. apply US. left; eauto.
  - assert (S : strong ac [CInt DCCnfQuote; CPtr new]).
    { right. exists [mkfr DCCnfQuote (ANode (Cl new)) ANone]. split; [reflexivity|]. split; [discriminate|]. split.
      - constructor; [|constructor]. split; cbn; [exists new; reflexivity|reflexivity].
      - split; [discriminate|]. split; [intros g X; inversion X; discriminate|]. constructor; [|constructor].
        split; [right; now left|]. split; [reflexivity|]. cbn. discriminate. }
    split.
    + intros m l Q. unfold archive_copy in Q. destruct (node_dec m (Cl c)) as [->|N1]; [rewrite set_same in Q; inversion Q; subst; exact S|].
      rewrite set_other in Q by assumption. destruct (node_dec m (Cl new)) as [->|ND]; [rewrite set_same in Q; eauto|rewrite set_other in Q by assumption; eauto].
    + apply (rank_copy ac H rank RK); [|exact NE]. intros m qs Q I. apply US. left; eauto.
Qed.
Lemma history_inv : forall s, history s -> hinv s.
Proof.
  intros s Hs. induction Hs as [|s t Hs IH E]; [|eapply event_inv; eauto].
  split; [cbn; discriminate|]. exists (fun _ => 0). cbn. intros n ps p E. inversion E; subst. intros [].
Qed.
Lemma history_ok : forall ac H, history (ac, H) -> heap_ok ac H.
Proof. intros ac H Hs. destruct (history_inv _ Hs) as [S R]. split; [intros n l E; apply strong_ok; exact (S n l E)|exact R]. Qed.
