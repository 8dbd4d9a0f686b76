(** * Proofs about the propositional check. *)
From Verif Require Import Terms Unify Semantics Clauses SatCheck.
From Coq Require Import ZArith Lia.
Local Open Scope nat_scope.

(** ** Purity *)
Definition pos_in (n : Z) (l : list Z) : Prop := exists z, In z l /\ (0 < z)%Z /\ z = n.
Definition neg_in (n : Z) (l : list Z) : Prop := exists z, In z l /\ ~ (0 < z)%Z /\ Z.opp z = n.

Lemma add_state_fst st z n : fst (add_state st z n) = true <-> fst (st n) = true \/ (0 < z /\ z = n)%Z.
Proof.
  unfold add_state. destruct (Z.ltb_spec 0 z).
  - destruct (Z.eqb_spec n z); cbn; intuition lia.
  - destruct (Z.eqb_spec n (Z.opp z)); cbn; intuition lia.
Qed.
Lemma add_state_snd st z n : snd (add_state st z n) = true <-> snd (st n) = true \/ (~ 0 < z /\ Z.opp z = n)%Z.
Proof.
  unfold add_state. destruct (Z.ltb_spec 0 z).
  - destruct (Z.eqb_spec n z); cbn; intuition lia.
  - destruct (Z.eqb_spec n (Z.opp z)); cbn; intuition lia.
Qed.
Lemma add_lits_fst n : forall l st, fst (fold_left add_state l st n) = true <-> fst (st n) = true \/ pos_in n l.
Proof.
  induction l as [|z l IH]; intros st; cbn [fold_left].
  - split; auto. intros [H|[z [[] _]]]; auto.
  - rewrite IH, add_state_fst. unfold pos_in. split.
    + intros [[H|H]|[y [I H]]]; auto; right; [exists z|exists y]; cbn; tauto.
    + intros [H|[y [[->|I] H]]]; auto. right. exists y; auto.
Qed.
Lemma add_lits_snd n : forall l st, snd (fold_left add_state l st n) = true <-> snd (st n) = true \/ neg_in n l.
Proof.
  induction l as [|z l IH]; intros st; cbn [fold_left].
  - split; auto. intros [H|[z [[] _]]]; auto.
  - rewrite IH, add_state_snd. unfold neg_in. split.
    + intros [[H|H]|[y [I H]]]; auto; right; [exists z|exists y]; cbn; tauto.
    + intros [H|[y [[->|I] H]]]; auto. right. exists y; auto.
Qed.
Lemma state_fst n : forall cs st, fst (fold_left add_satclause cs st n) = true <-> fst (st n) = true \/ exists c, In c cs /\ pos_in n (slits c).
Proof.
  induction cs as [|c cs IH]; intros st; cbn [fold_left].
  - split; auto. intros [H|[c [[] _]]]; auto.
  - rewrite IH. unfold add_satclause. rewrite add_lits_fst. split.
    + intros [[H|H]|[y [I H]]]; auto; right; [exists c|exists y]; cbn; tauto.
    + intros [H|[y [[->|I] H]]]; auto. right. exists y; auto.
Qed.
Lemma state_snd n : forall cs st, snd (fold_left add_satclause cs st n) = true <-> snd (st n) = true \/ exists c, In c cs /\ neg_in n (slits c).
Proof.
  induction cs as [|c cs IH]; intros st; cbn [fold_left].
  - split; auto. intros [H|[c [[] _]]]; auto.
  - rewrite IH. unfold add_satclause. rewrite add_lits_snd. split.
    + intros [[H|H]|[y [I H]]]; auto; right; [exists c|exists y]; cbn; tauto.
    + intros [H|[y [[->|I] H]]]; auto. right. exists y; auto.
Qed.

Lemma exported_filter s : exported s = filter (fun c => negb (check_pure (fold_left add_satclause (sset s) (fun _ => (false, false))) c)) (sset s).
Proof.
  unfold exported, mark_pure. generalize (fold_left add_satclause (sset s) (fun _ => (false, false))) as st. intros st.
  induction (sset s) as [|c l IH]; cbn; auto. destruct (check_pure st c); cbn; rewrite IH; auto.
Qed.
Lemma exported_in s c : In c (exported s) -> In c (sset s).
Proof. rewrite exported_filter, filter_In. tauto. Qed.

Lemma pure_sat s : prop_sat (map slits (exported s)) <-> prop_sat (map slits (sset s)).
Proof.
  split.
  - rewrite exported_filter. remember (fold_left add_satclause (sset s) (fun _ => (false, false))) as st eqn:Q. intros [V H].
    exists (fun n => let '(p, q) := st n in if p && q then V n else p).
    intros zs I. apply in_map_iff in I. destruct I as [c [<- I]]. destruct (check_pure st c) eqn:P.
    + unfold check_pure in P. apply existsb_exists in P. destruct P as [z [Iz P]]. exists z. split; auto.
      unfold pure_lit in P. unfold lit_true. destruct (Z.ltb_spec 0 z) as [L|L].
      * assert (T : fst (st z) = true). { rewrite Q. apply state_fst. right. exists c. split; auto. exists z. auto. }
        destruct (st z) as [p q]. cbn in T. subst p. destruct q; cbn in *; auto; discriminate.
      * assert (T : snd (st (Z.opp z)) = true). { rewrite Q. apply state_snd. right. exists c. split; auto. exists z. repeat split; auto. lia. }
        destruct (st (Z.opp z)) as [p q]. cbn in T. subst q. destruct p; cbn in *; auto; discriminate.
    + destruct (H (slits c)) as [z [Iz T]]. { apply in_map. apply filter_In. rewrite P. auto. }
      exists z. split; auto. assert (N : pure_lit st z = false).
      { destruct (pure_lit st z) eqn:X; auto. assert (check_pure st c = true) by (apply existsb_exists; eauto). congruence. }
      unfold pure_lit in N. unfold lit_true in *. destruct (Z.ltb 0 z).
      * destruct (st z) as [p q]. destruct (p && q); [exact T|discriminate].
      * destruct (st (Z.opp z)) as [p q]. destruct (p && q); [exact T|discriminate].
  - intros [V H]. exists V. intros c I. apply H. apply in_map_iff in I. destruct I as [d [<- I]]. apply in_map, exported_in, I.
Qed.

(** ** The index *)
Definition ix_ok (ix : list (term * Z)) (mx : Z) : Prop :=
  (0 <= mx)%Z /\ NoDup (map fst ix) /\ NoDup (map snd ix) /\ forall t n, In (t, n) ix -> (0 < n <= mx)%Z.

Lemma find_no_in ix t n : NoDup (map fst ix) -> In (t, n) ix -> find_no ix t = n.
Proof.
  induction ix as [|[u m] ix IH]; cbn; intros N I; [contradiction|]. inversion N as [|? ? N1 N2]; subst. destruct I as [I|I].
  - injection I as -> ->. destruct (term_eqb t t) eqn:X; auto. exfalso. rewrite (proj2 (term_eqb_eq t t) eq_refl) in X. discriminate.
  - destruct (term_eqb u t) eqn:X; auto. apply term_eqb_eq in X. subst u. exfalso. apply N1. apply in_map_iff. exists (t, n); auto.
Qed.
Lemma find_no_pos ix t : find_no ix t <> 0%Z -> In (t, find_no ix t) ix.
Proof.
  induction ix as [|[u m] ix IH]; cbn; intros N; [congruence|]. destruct (term_eqb u t) eqn:X.
  - apply term_eqb_eq in X. subst u. auto.
  - right. auto.
Qed.
Lemma find_no_zero ix mx t : ix_ok ix mx -> find_no ix t = 0%Z -> ~ In t (map fst ix).
Proof.
  intros [H0 [H1 [H2 H3]]] Z I. apply in_map_iff in I. destruct I as [[u n] [Q I]]. cbn in Q. subst u.
  rewrite (find_no_in _ _ _ H1 I) in Z. subst n. apply H3 in I. lia.
Qed.

Section Enc.
Variables (eqc : sym) (pg : term -> term -> bool) (sg : subst).
Let atom := lit_atom eqc pg sg.

(** the number stands for the literal *)
Definition enc_lit (ix : list (term * Z)) (z : Z) (e : eqn) : Prop :=
  exists n, In (atom e, n) ix /\ z = if pos e then n else Z.opp n.
Definition enc (ix : list (term * Z)) (c : satcl) : Prop := Forall2 (enc_lit ix) (slits c) (ssrc c).

Lemma enc_lit_mono ix ix' z e : incl ix ix' -> enc_lit ix z e -> enc_lit ix' z e.
Proof. intros I [n [H Q]]. exists n; auto. Qed.
Lemma forall2_mono ix ix' zs c : incl ix ix' -> Forall2 (enc_lit ix) zs c -> Forall2 (enc_lit ix') zs c.
Proof. intros I H. induction H; constructor; auto. eapply enc_lit_mono; eauto. Qed.

Lemma translate_lit_ok ix mx e z ix' mx' : ix_ok ix mx -> translate_lit eqc pg sg ix mx e = (z, ix', mx') ->
  ix_ok ix' mx' /\ incl ix ix' /\ enc_lit ix' z e.
Proof.
  unfold translate_lit. fold atom. intros H T. destruct (Z.eqb_spec (find_no ix (atom e)) 0) as [F|F]; injection T as <- <- <-.
  - assert (F' := find_no_zero _ _ _ H F). destruct H as [H0 [H1 [H2 H3]]].
    split; [split; [lia|]; split; [|split]|split].
    + cbn. constructor; auto.
    + cbn. constructor; auto. intros I. apply in_map_iff in I. destruct I as [[u n] [Q I]]. cbn in Q. subst n. apply H3 in I. lia.
    + intros t n [H|H]; [injection H as <- <-; lia|apply H3 in H; lia].
    + intros x; right; auto.
    + exists (Z.succ mx). cbn; auto.
  - split; [exact H|]. split; [apply incl_refl|]. exists (find_no ix (atom e)). split; auto. apply find_no_pos; auto.
Qed.
Lemma translate_lits_ok : forall c ix mx zs ix' mx', ix_ok ix mx -> translate_lits eqc pg sg ix mx c = (zs, ix', mx') ->
  ix_ok ix' mx' /\ incl ix ix' /\ Forall2 (enc_lit ix') zs c.
Proof.
  induction c as [|e c IH]; cbn [translate_lits]; intros ix mx zs ix' mx' H T.
  - injection T as <- <- <-. split; [exact H|]. split; [apply incl_refl|constructor].
  - destruct (translate_lit eqc pg sg ix mx e) as [[z ix1] mx1] eqn:T1. destruct (translate_lits eqc pg sg ix1 mx1 c) as [[zs2 ix2] mx2] eqn:T2.
    injection T as <- <- <-. apply translate_lit_ok in T1; auto. destruct T1 as [A1 [A2 A3]]. apply IH in T2; auto. destruct T2 as [B1 [B2 B3]].
    split; auto. split; [eapply incl_tran; eauto|]. constructor; auto. eapply enc_lit_mono; eauto.
Qed.

(** what the import establishes: the stored clauses are the encodings of an initial part of the clauses; of all without limit *)
Definition set_ok (s : satset) : Prop := ix_ok (sindex s) (smax s) /\ Forall (enc (sindex s)) (sset s).
Lemma create_ok c s s' : set_ok s -> create_and_store eqc pg sg c s = Some s' ->
  set_ok s' /\ map ssrc (sset s') = map ssrc (sset s) ++ [c] /\ slimit s' = slimit s.
Proof.
  intros [H1 H2] T. unfold create_and_store in T. destruct (match slimit s with None => false | Some k => _ end); [discriminate|].
  destruct (translate_lits eqc pg sg (sindex s) (smax s) c) as [[zs ix] mx] eqn:TL. injection T as <-.
  apply translate_lits_ok in TL; auto. destruct TL as [A1 [A2 A3]]. split; [split; auto|split; auto].
  - cbn. apply Forall_app. split; [|constructor; auto]. apply Forall_forall. rewrite Forall_forall in H2. intros d Hd. eapply forall2_mono; eauto. apply H2; auto.
  - cbn. rewrite map_app. reflexivity.
Qed.
Lemma import_set_ok : forall cs s, set_ok s ->
  set_ok (import_set eqc pg sg cs s) /\ slimit (import_set eqc pg sg cs s) = slimit s
  /\ exists p, incl p cs /\ map ssrc (sset (import_set eqc pg sg cs s)) = map ssrc (sset s) ++ p /\ (slimit s = None -> p = cs).
Proof.
  induction cs as [|c cs IH]; intros s H; cbn [import_set].
  - split; [exact H|]. split; [reflexivity|]. exists []. rewrite app_nil_r. split; [apply incl_refl|]. auto.
  - destruct (create_and_store eqc pg sg c s) as [s'|] eqn:T.
    + apply create_ok in T; auto. destruct T as [A [B C]]. destruct (IH _ A) as [D [F [p [P1 [P2 P3]]]]]. split; auto. split; [congruence|].
      exists (c :: p). repeat split.
      * intros x [->|I]; [left; auto|right; auto].
      * rewrite P2, B, <- app_assoc. reflexivity.
      * intros L. rewrite P3; auto. congruence.
    + split; [exact H|]. split; [reflexivity|]. exists []. rewrite app_nil_r. split; [intros x []|]. split; [reflexivity|].
      intros L. unfold create_and_store in T. rewrite L in T. destruct (translate_lits eqc pg sg (sindex s) (smax s) c) as [[zs ix] mx]. discriminate.
Qed.
Lemma import_sets_ok : forall css s, set_ok s ->
  set_ok (import_sets eqc pg sg css s) /\ slimit (import_sets eqc pg sg css s) = slimit s
  /\ exists p, incl p (concat css) /\ map ssrc (sset (import_sets eqc pg sg css s)) = map ssrc (sset s) ++ p /\ (slimit s = None -> p = concat css).
Proof.
  unfold import_sets. induction css as [|cs css IH]; intros s H; cbn [fold_left concat].
  - split; [exact H|]. split; [reflexivity|]. exists []. rewrite app_nil_r. split; [apply incl_refl|]. auto.
  - destruct (import_set_ok cs _ H) as [A [B [p [P1 [P2 P3]]]]]. destruct (IH _ A) as [D [F [q [Q1 [Q2 Q3]]]]]. split; auto. split; [congruence|].
    exists (p ++ q). repeat split.
    + apply incl_app; [apply incl_appl; auto|apply incl_appr; auto].
    + rewrite Q2, P2, <- app_assoc. reflexivity.
    + intros L. rewrite P3, Q3; auto. congruence.
Qed.
Lemma alloc_ok lim : set_ok (sat_alloc lim).
Proof. split; [|constructor]. split; [cbn; lia|]. split; [constructor|]. split; [constructor|]. intros t n []. Qed.

(** ** Truth values of numbers and of atoms *)
Fixpoint key_of (ix : list (term * Z)) (n : Z) : term :=
  match ix with
  | [] => ttrue
  | (t, m) :: ix' => if Z.eqb m n then t else key_of ix' n
  end.
Lemma key_of_in ix t n : NoDup (map snd ix) -> In (t, n) ix -> key_of ix n = t.
Proof.
  induction ix as [|[u m] ix IH]; cbn; intros N I; [contradiction|]. inversion N as [|? ? N1 N2]; subst. destruct I as [I|I].
  - injection I as -> ->. rewrite Z.eqb_refl. auto.
  - destruct (Z.eqb_spec m n); auto. subst m. exfalso. apply N1. apply in_map_iff. exists (t, n); auto.
Qed.
Lemma enc_true ix mx z e V (B : term -> bool) : ix_ok ix mx -> (forall t n, In (t, n) ix -> V n = B t) -> enc_lit ix z e ->
  lit_true V z = true <-> B (atom e) = pos e.
Proof.
  intros H VB [n [I Q]]. assert (P := proj2 (proj2 (proj2 H)) _ _ I). rewrite <- (VB _ _ I). unfold lit_true.
  destruct (pos e); subst z.
  - destruct (Z.ltb_spec 0 n); [tauto|lia].
  - destruct (Z.ltb_spec 0 (Z.opp n)); [lia|]. rewrite Z.opp_involutive. destruct (V n); cbn; intuition discriminate.
Qed.
Lemma enc_exists ix mx V (B : term -> bool) : ix_ok ix mx -> (forall t n, In (t, n) ix -> V n = B t) ->
  forall zs c, Forall2 (enc_lit ix) zs c -> (exists z, In z zs /\ lit_true V z = true) <-> exists e, In e c /\ B (atom e) = pos e.
Proof.
  intros H VB zs c F. induction F as [|z e zs c L F IH].
  - split; intros [x [[] _]].
  - assert (T := enc_true _ _ _ _ _ _ H VB L). split.
    + intros [y [[->|I] Y]]; [exists e; cbn; tauto|]. destruct (proj1 IH) as [d [D1 D2]]; [eauto|]. exists d. cbn; auto.
    + intros [y [[->|I] Y]]; [exists z; cbn; tauto|]. destruct (proj2 IH) as [d [D1 D2]]; [eauto|]. exists d. cbn; auto.
Qed.
(** A list of encodings is satisfiable iff the atoms can be given truth values that satisfy the clauses. *)
Definition atoms_sat (B : term -> bool) (cs : list clause) : Prop := forall c, In c cs -> exists e, In e c /\ B (atom e) = pos e.
Lemma encodings_sat ix mx l : ix_ok ix mx -> Forall (enc ix) l -> prop_sat (map slits l) <-> exists B, atoms_sat B (map ssrc l).
Proof.
  intros H F. rewrite Forall_forall in F. split.
  - intros [V HV]. exists (fun t => V (find_no ix t)). intros c I. apply in_map_iff in I. destruct I as [d [<- I]].
    refine (proj1 (enc_exists ix mx V (fun t => V (find_no ix t)) H _ (slits d) (ssrc d) (F _ I)) (HV _ (in_map slits _ _ I))).
    intros t n I'. rewrite (find_no_in _ _ _ (proj1 (proj2 H)) I'). reflexivity.
  - intros [B HB]. exists (fun n => B (key_of ix n)). intros zs I. apply in_map_iff in I. destruct I as [d [<- I]].
    refine (proj2 (enc_exists ix mx (fun n => B (key_of ix n)) B H _ (slits d) (ssrc d) (F _ I)) (HB _ (in_map ssrc _ _ I))).
    intros t n I'. cbn. rewrite (key_of_in _ _ _ (proj1 (proj2 (proj2 H))) I'). reflexivity.
Qed.

Lemma equlit_rt e : equlit e = false -> rt e = ttrue.
Proof. unfold equlit. rewrite negb_false_iff. apply term_eqb_eq. Qed.
(** truth values of instances from truth values of atoms, and back *)
Lemma atoms_to_inst B cs : total_order pg -> atoms_sat B cs -> exists A, valuation_ok A /\ inst_sat A sg cs.
Proof.
  intros HP HB. exists (fun (q : bool) l r => if q then B (if pg l r then Fun eqc [l; r] else Fun eqc [r; l]) else B l). split.
  - intros l r. destruct (term_eqb l r) eqn:X; [apply term_eqb_eq in X; subst; auto|].
    assert (N : l <> r). { intros ->. rewrite (proj2 (term_eqb_eq r r) eq_refl) in X. discriminate. }
    rewrite (HP _ _ N). destruct (pg r l); reflexivity.
  - intros c I. destruct (HB c I) as [e [Ie T]]. exists e. split; auto. rewrite <- T. unfold atom, lit_atom. destruct (equlit e); auto.
Qed.
Lemma inst_to_atoms A cs : valuation_ok A -> Forall (eq_free eqc) cs -> Forall atoms_ok cs -> inst_sat A sg cs -> exists B, atoms_sat B cs.
Proof.
  intros HA HF HO HI. rewrite Forall_forall in HF, HO.
  exists (fun k => match k with Fun f [x; y] => if Nat.eqb f eqc then A true x y else A false k ttrue | _ => A false k ttrue end).
  intros c I. destruct (HI c I) as [e [Ie T]]. exists e. split; auto. unfold atom, lit_atom. destruct (equlit e) eqn:Q.
  - cbn. rewrite <- T. destruct (pg _ _); rewrite Nat.eqb_refl; auto.
  - rewrite <- T, (equlit_rt _ Q). specialize (HF c I e). specialize (HO c I e). destruct (lt e) as [x|f a]; [exfalso; eapply HO; eauto|].
    cbn [Terms.app]. assert (N : f <> eqc). { intros ->. eapply HF; eauto. }
    destruct a as [|x1 [|x2 [|x3 a]]]; cbn [map]; auto. apply Nat.eqb_neq in N. rewrite N. reflexivity.
Qed.
End Enc.

Lemma core_of_in {A} core : forall (l : list A) i x, In x (core_of core i l) -> In x l.
Proof.
  induction l as [|a l IH]; cbn; intros i x H; auto. destruct (core i); [destruct H as [H|H]; [auto|right; eauto]|right; eauto].
Qed.
Lemma core_of_map {A B} (f : A -> B) core : forall (l : list A) i, core_of core i (map f l) = map f (core_of core i l).
Proof. induction l as [|a l IH]; cbn; intros i; auto. destruct (core i); cbn; rewrite IH; auto. Qed.

Lemma core_of_nth {A} core : forall (l : list A) i x, In x (core_of core i l) <-> exists j, nth_error l j = Some x /\ core (i + j) = true.
Proof.
  induction l as [|a l IH]; intros i x; cbn [core_of].
  - split; [intros []|]. intros [[|j] [H _]]; discriminate.
  - assert (T : In x (core_of core (S i) l) <-> exists j, nth_error (a :: l) (S j) = Some x /\ core (i + S j) = true).
    { rewrite IH. cbn. setoid_rewrite Nat.add_succ_r. reflexivity. }
    destruct (core i) eqn:C.
    + split.
      * intros [->|H]; [exists 0; cbn; rewrite Nat.add_0_r; auto|]. apply T in H. destruct H as [j H]. exists (S j). auto.
      * intros [[|j] [H1 H2]]; [injection H1 as ->; left; auto|]. right. apply T. exists j. auto.
    + rewrite T. split; [intros [j H]; exists (S j); auto|]. intros [[|j] [H1 H2]]; [|exists j; auto]. rewrite Nat.add_0_r in H2. congruence.
Qed.
Lemma inst_sat_perm A sg cs ds : (forall c, In c cs <-> In c ds) -> inst_sat A sg cs -> inst_sat A sg ds.
Proof. intros H I c Hc. apply I. apply H; auto. Qed.

(** The check, for an arbitrary substitution. *)
Lemma check_exact eqc pg sg sv lim css r : total_order pg -> Forall (eq_free eqc) (concat css) -> Forall atoms_ok (concat css) -> solver_ok sv ->
  check_unsat sv (import_sets eqc pg sg css (sat_alloc lim)) = r ->
  match r with
  | CUnsat ps => incl ps (concat css) /\ ~ exists A, valuation_ok A /\ inst_sat A sg ps
  | CSat => lim = None -> exists A, valuation_ok A /\ inst_sat A sg (concat css)
  | CGaveUp => True
  | NoParent => False
  end.
Proof.
  intros HP HF HA HS Q. destruct (import_sets_ok eqc pg sg css _ (alloc_ok eqc pg sg lim)) as [[I1 I2] [_ [p [P1 [P2 P3]]]]].
  cbn [sat_alloc sset slimit map List.app] in P2, P3. set (s := import_sets eqc pg sg css (sat_alloc lim)) in *.
  unfold check_unsat in Q. specialize (HS (map slits (exported s))). destruct (sv (map slits (exported s))) as [|core|]; [| |subst r; exact I].
  - subst r. intros L. apply pure_sat in HS. apply (encodings_sat _ _ _ _ _ _ I1 I2) in HS. rewrite P2, (P3 L) in HS.
    destruct HS as [B HB]. exact (atoms_to_inst _ _ _ _ _ HP HB).
  - assert (IN : incl (map ssrc (core_of core 0 (exported s))) (concat css)).
    { intros c I. apply P1. rewrite <- P2. apply in_map_iff in I. destruct I as [d [<- I]]. apply in_map, exported_in. eapply core_of_in; eauto. }
    assert (NA : ~ exists A, valuation_ok A /\ inst_sat A sg (map ssrc (core_of core 0 (exported s)))).
    { intros [A [VA SA]]. apply HS.
      enough (X : prop_sat (core_of core 0 (map slits (exported s)))).
      { destruct X as [V X]. exists V. intros i c N1 N2. apply X. apply core_of_nth. exists i. auto. }
      rewrite core_of_map. apply (encodings_sat eqc pg sg (sindex s) (smax s)); auto.
      - apply Forall_forall. rewrite Forall_forall in I2. intros d I. apply I2, exported_in. eapply core_of_in; eauto.
      - apply (inst_to_atoms eqc pg sg A); auto; apply Forall_forall; intros c I; apply IN in I; rewrite Forall_forall in HF, HA; auto. }
    destruct (rev (map ssrc (core_of core 0 (exported s)))) as [|c l] eqn:R.
    + subst r. apply NA. exists (fun _ _ _ => true). split; [intros ? ?; auto|]. intros d I. exfalso.
      apply in_rev in I. rewrite R in I. contradiction.
    + subst r. rewrite <- R. split.
      * intros d I. apply IN. apply in_rev in I. exact I.
      * intros [A [VA SA]]. apply NA. exists A. split; auto. intros d I. apply SA. apply -> in_rev. exact I.
Qed.

(** ** First-order meaning *)

(** In an interpretation the terms of finitely many literals can be compared. *)
Lemma finite_valuation S dist M v : model_ok S dist M -> forall l : list (term * term),
  exists f : term -> term -> bool, (forall s t, f s t = f t s) /\ forall s t, In (s, t) l -> f s t = true <-> eval M v s = eval M v t.
Proof.
  intros HM. induction l as [|[s0 t0] l [f [F1 F2]]].
  - exists (fun _ _ => true). split; [auto|intros s t []].
  - assert (D : exists b : bool, b = true <-> eval M v s0 = eval M v t0).
    { destruct (mo_dec _ _ _ HM (eval M v s0) (eval M v t0)); [exists true|exists false]; intuition discriminate. }
    destruct D as [b Hb].
    exists (fun s t => if (term_eqb s s0 && term_eqb t t0) || (term_eqb s t0 && term_eqb t s0) then b else f s t). split.
    + intros s t. rewrite (F1 s t). rewrite (andb_comm (term_eqb t s0)), (andb_comm (term_eqb t t0)), orb_comm. reflexivity.
    + intros s t I. destruct ((term_eqb s s0 && term_eqb t t0) || (term_eqb s t0 && term_eqb t s0)) eqn:X.
      * apply orb_true_iff in X. rewrite !andb_true_iff, !term_eqb_eq in X. destruct X as [[-> ->]|[-> ->]]; [exact Hb|]. rewrite Hb. split; congruence.
      * destruct I as [I|I]; [|apply F2; auto]. injection I as -> ->. rewrite (proj2 (term_eqb_eq s s) eq_refl), (proj2 (term_eqb_eq t t) eq_refl) in X. discriminate.
Qed.
Lemma model_inst E M v sg cs : model_ok (srt E) (dist E) M -> respects (srt E) M v -> wfsubst (srt E) sg ->
  (forall c, In c cs -> clause_true (srt E) M c) -> exists A, valuation_ok A /\ inst_sat A sg cs.
Proof.
  intros HM Hv Hs HT.
  destruct (finite_valuation _ _ M v HM (flat_map (map (fun e => (Terms.app sg (lt e), Terms.app sg (rt e)))) cs)) as [f [F1 F2]].
  exists (fun _ => f). split; [intros l r; apply F1|]. intros c I.
  specialize (HT c I (fun x => eval M v (sg x)) (respects_subst _ _ _ _ _ HM Hv Hs)). apply Exists_exists in HT. destruct HT as [e [Ie H]].
  exists e. split; auto. assert (J : In (Terms.app sg (lt e), Terms.app sg (rt e)) (flat_map (map (fun e => (Terms.app sg (lt e), Terms.app sg (rt e)))) cs)).
  { apply in_flat_map. exists c. split; auto. apply in_map_iff. eauto. }
  apply F2 in J. unfold holds in H. rewrite <- lit_holds_app in H. unfold lit_holds in H. destruct (pos e).
  - apply J; auto.
  - destruct (f _ _); auto. exfalso. apply H, J; auto.
Qed.

(** ** The grounding substitution *)
Lemma sort_consts_in S syms s f : In f (sort_consts S syms s) <-> In f syms /\ fargs S f = [] /\ fres S f = s.
Proof.
  unfold sort_consts. rewrite filter_In. destruct (fargs S f); [rewrite Nat.eqb_eq|]; intuition discriminate.
Qed.
Lemma best_const_in p d : forall cands f cj g cj', best_const p d cands f cj = (g, cj') -> In g (f :: cands).
Proof.
  induction cands as [|c cs IH]; cbn [best_const]; intros f cj g cj' H.
  - injection H as <- <-. left; auto.
  - destruct (p c f cj d) as [b cj1]. apply IH in H. destruct b; destruct H as [H|H]; cbn; auto.
Qed.
Lemma freq_const_in S syms p d s cj g cj' : freq_const S syms p d s cj = (Some g, cj') -> In g (sort_consts S syms s).
Proof.
  unfold freq_const. destruct (sort_consts S syms s) as [|f cs]; [discriminate|]. destruct (best_const p d cs f cj) as [h cj1] eqn:B.
  intros H. injection H as <- <-. eapply best_const_in; eauto.
Qed.
Lemma freq_const_none S syms p d s cj cj' : freq_const S syms p d s cj = (None, cj') -> sort_consts S syms s = [].
Proof.
  unfold freq_const. destruct (sort_consts S syms s) as [|f cs]; auto. destruct (best_const p d cs f cj); discriminate.
Qed.
Lemma norm_term_ok E G f x : ginfo_ok E G -> (forall g, f = Some g -> fargs (srt E) g = [] /\ fres (srt E) g = vsort (srt E) x) ->
  wf (srt E) (norm_term G f x) /\ tsort (srt E) (norm_term G f x) = vsort (srt E) x.
Proof.
  intros HG HF. destruct f as [f|]; cbn.
  - destruct (HF f eq_refl) as [A B]. destruct (gnorm G) as [nf|] eqn:N.
    + destruct (HG nf f N A) as [C D]. split; auto. congruence.
    + split; [apply wf_fun; split; [constructor|cbn; auto]|exact B].
  - split; reflexivity.
Qed.
Lemma stack_term_ok E G st x cj t cj' : ginfo_ok E G -> stack_term (srt E) G st x cj = (t, cj') ->
  wf (srt E) t /\ tsort (srt E) t = vsort (srt E) x.
Proof.
  intros HG H. destruct st as [| |p]; cbn in H.
  - injection H as <- <-. split; reflexivity.
  - injection H as <- <-. apply norm_term_ok; auto. intros g Hg. unfold first_const in Hg.
    assert (I : In g (sort_consts (srt E) (gsyms G) (vsort (srt E) x))) by (destruct (sort_consts _ _ _); [discriminate|injection Hg as <-; left; auto]).
    apply sort_consts_in in I. tauto.
  - destruct (freq_const _ _ _ _ _ _) as [f cj1] eqn:F. injection H as <- <-. apply norm_term_ok; auto. intros g ->.
    apply freq_const_in, sort_consts_in in F. tauto.
Qed.
Lemma ground_binds_ok E G st : forall vb cj, ginfo_ok E G -> bank_ok E vb -> forall x t, In (x, t) (ground_binds (srt E) G st vb cj) ->
  wf (srt E) t /\ tsort (srt E) t = vsort (srt E) x.
Proof.
  induction vb as [|[|y ys] vb IH]; cbn [ground_binds]; intros cj HG HB x t I; [contradiction| |].
  - eapply IH; eauto. intros s a b Hs. apply HB. right; auto.
  - destruct (stack_term (srt E) G st y cj) as [u cj'] eqn:T. apply in_app_iff in I. destruct I as [I|I].
    + apply in_map_iff in I. destruct I as [z [Q I]]. injection Q as -> ->. destruct (stack_term_ok _ _ _ _ _ _ _ HG T) as [A B]. split; auto.
      rewrite B. apply (HB (y :: ys)); cbn; auto.
    + eapply IH; eauto. intros s a b Hs. apply HB. right; auto.
Qed.
Lemma lookup_var_cases b x : lookup_var b x = Var x /\ ~ In x (map fst b) \/ In (x, lookup_var b x) b.
Proof.
  induction b as [|[y t] b [[I1 I2]|IH]]; cbn; auto.
  - destruct (Nat.eqb_spec y x); [subst; auto|]. left. tauto.
  - destruct (Nat.eqb_spec y x); [subst; auto|]. auto.
Qed.
Lemma ground_subst_wf E G st vb : ginfo_ok E G -> bank_ok E vb -> wfsubst (srt E) (ground_subst (srt E) G st vb).
Proof.
  intros HG HB x. unfold ground_subst. destruct (lookup_var_cases (ground_binds (srt E) G st vb (gconj G)) x) as [[-> _]|H].
  - split; reflexivity.
  - apply (ground_binds_ok E G st vb (gconj G) HG HB) in H. tauto.
Qed.

Lemma lookup_app_l b b' x : In x (map fst b) -> lookup_var (b ++ b') x = lookup_var b x.
Proof.
  induction b as [|[y t] b IH]; cbn; [contradiction|]. intros [->|H]; [rewrite Nat.eqb_refl; auto|]. destruct (Nat.eqb y x); auto.
Qed.
Lemma lookup_app_r b b' x : ~ In x (map fst b) -> lookup_var (b ++ b') x = lookup_var b' x.
Proof.
  induction b as [|[y t] b IH]; cbn; auto. intros H. destruct (Nat.eqb_spec y x); [exfalso; auto|]. apply IH. auto.
Qed.
Lemma lookup_const xs t x : In x xs -> lookup_var (map (fun y => (y, t)) xs) x = t.
Proof. induction xs as [|y xs IH]; cbn; [contradiction|]. intros [->|H]; [rewrite Nat.eqb_refl; auto|]. destruct (Nat.eqb y x); auto. Qed.

(** every variable of a stack gets the term computed for the stack *)
Lemma ground_stack S G st : forall vb cj stk, NoDup (concat vb) -> In stk vb -> stk <> [] ->
  exists x0 cj0 t cj1, hd_error stk = Some x0 /\ stack_term S G st x0 cj0 = (t, cj1)
    /\ forall x, In x stk -> lookup_var (ground_binds S G st vb cj) x = t.
Proof.
  induction vb as [|[|y ys] vb IH]; cbn [ground_binds concat]; intros cj stk N I NE; [contradiction| |].
  - destruct I as [<-|I]; [congruence|]. eapply IH; eauto.
  - destruct (stack_term S G st y cj) as [u cj'] eqn:T. destruct I as [<-|I].
    + exists y, cj, u, cj'. split; auto. split; auto. intros x Hx. rewrite lookup_app_l; [apply lookup_const; auto|].
      rewrite map_map. cbn. rewrite map_id. exact Hx.
    + assert (N2 : NoDup (concat vb)). { clear - N. induction (y :: ys) as [|a l IHl]; cbn in N; auto. inversion N; auto. }
      destruct (IH cj' stk N2 I NE) as [x0 [c0 [t [c1 [A [B C]]]]]]. exists x0, c0, t, c1. split; auto. split; auto. intros x Hx.
      rewrite lookup_app_r; auto. rewrite map_map. cbn. rewrite map_id. intros J.
      assert (K : In x (concat vb)) by (apply in_concat; eauto).
      clear - N J K. change (In x (y :: ys)) in J. induction (y :: ys) as [|a l IHl]; cbn in *; [contradiction|]. inversion N; subst.
      destruct J as [->|J]; [apply H1, in_app_iff; auto|auto].
Qed.

(** the loop picks a best constant whenever the comparison is a weak order and leaves the counts alone *)
Lemma best_const_best (p : prefer) d cj (key : sym -> Z) : (forall f g, p f g cj d = (Z.ltb (key f) (key g), cj)) ->
  forall cands f g cj', best_const p d cands f cj = (g, cj') -> cj' = cj /\ forall h, In h (f :: cands) -> (key g <= key h)%Z.
Proof.
  intros HP. induction cands as [|c cs IH]; cbn [best_const]; intros f g cj' H.
  - injection H as <- <-. split; auto. intros h [->|[]]. lia.
  - rewrite HP in H. apply IH in H. destruct H as [A B]. split; auto. intros h Hh.
    destruct (Z.ltb_spec (key c) (key f)) as [L|L].
    + destruct Hh as [->|[->|Hh]]; [assert (X := B c (or_introl eq_refl)); lia|apply B; left; auto|apply B; right; auto].
    + destruct Hh as [->|[->|Hh]]; [apply B; left; auto|assert (X := B f (or_introl eq_refl)); lia|apply B; right; auto].
Qed.
