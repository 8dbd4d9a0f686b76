(** * Property C60: the term ordering generated for a problem.
    Specification vocabulary first, then the theorems; proofs are in OrdGenProofs.v. *)
From Coq Require Import String Ascii Permutation ZifyBool.
From Verif Require Import Terms KBO KBOProofs KBOOrder KBOProps LPO OCB OCBProofs OCBProps OrdGen OrdGenProofs.

(** ** Specification *)

(** distinct objects are constants *)
Definition distinct_are_constants (P : problem) : Prop := forall f, dst P f = true -> ari P f = 0.

(** states of the comparison reached by comparing terms over the symbols of U with their arities *)
Inductive compared (o : ocb) (ar : sym -> nat) (U : sym -> bool) : kstate -> Prop :=
| compared_init : compared o ar U kinit
| compared_step k s t : compared o ar U k -> arok ar s = true -> arok ar t = true ->
    insig U s = true -> insig U t = true -> compared o ar U (snd (kbo6_compare o k s t)).

(** the code finds s greater than t, whatever it compared before *)
Definition greater (o : ocb) (ar : sym -> nat) (U : sym -> bool) (s t : term) : Prop :=
  exists k, compared o ar U k /\ fst (kbo6_compare o k s t) = Greater.

(** [greater] is a well-founded ordering usable for rewriting on the terms over U:
    irreflexive, transitive, closed under contexts and substitutions, contains the subterm
    relation, total on ground terms, without infinite descending chains over finitely many symbols *)
Record reduction_ordering (gt : term -> term -> Prop) (ar : sym -> nat) (U : sym -> bool) : Prop := {
  ro_irrefl : forall t, arok ar t = true -> insig U t = true -> ~ gt t t;
  ro_trans : forall s t u, arok ar s = true -> insig U s = true -> arok ar t = true -> insig U t = true ->
    arok ar u = true -> insig U u = true -> gt s t -> gt t u -> gt s u;
  ro_mono : forall f l r s t, arok ar (Fun f (l ++ s :: r)) = true -> insig U (Fun f (l ++ s :: r)) = true ->
    arok ar (Fun f (l ++ t :: r)) = true -> insig U (Fun f (l ++ t :: r)) = true ->
    gt s t -> gt (Fun f (l ++ s :: r)) (Fun f (l ++ t :: r));
  ro_stable : forall sg s t, (forall x, arok ar (sg x) = true /\ insig U (sg x) = true) ->
    arok ar s = true -> insig U s = true -> arok ar t = true -> insig U t = true -> gt s t -> gt (app sg s) (app sg t);
  ro_subterm : forall t u, arok ar t = true -> insig U t = true -> In u (subterms t) -> u <> t -> gt t u;
  ro_ground : forall s t, arok ar s = true -> insig U s = true -> arok ar t = true -> insig U t = true ->
    ground s -> ground t -> s = t \/ gt s t \/ gt t s;
  ro_wf : forall (sig : list sym) (chain : nat -> term),
    (forall i, arok ar (chain i) = true /\ insig U (chain i) = true /\ insig (fun f => existsb (Nat.eqb f) sig) (chain i) = true) ->
    ~ (forall i, gt (chain i) (chain (S i))) }.

(** The sum of the modifiers that apply to a symbol (--prec-mods options, PROVER/e_options.h:1108-1150) *)
Definition modifier (P : problem) (q : oparms) (f : sym) : Z :=
  ((if Z.eqb (conjfreq P f) 0
    then if Z.eqb (axiomfreq P f) 0 then 0 else axiom_only_mod q
    else if Z.eqb (axiomfreq P f) 0 then conj_only_mod q else conj_axiom_mod q)
   + (if skolem P f then skolem_mod q else 0) + (if defpred P f then defpred_mod q else 0))%Z.

Definition yes (b : bool) : Z := if b then 1%Z else 0%Z.
Definition constant (P : problem) (f : sym) : bool := Nat.eqb (ari P f) 0.
Definition unary (P : problem) (f : sym) : bool := Nat.eqb (ari P f) 1.
Definition in_conjecture (P : problem) (f : sym) : bool := negb (Z.eqb (conjfreq P f) 0).
(** a unary symbol that occurs at least as often as every other unary symbol *)
Definition top_unary (P : problem) (f : sym) : bool :=
  unary P f && forallb (fun g => negb (unary P g) || Z.leb (freq P g) (freq P f)) (seq 1 (sigsize P)).
Definition store_select (P : problem) (f : sym) : option Z :=
  if String.eqb (nm P f) "store" then Some 4%Z
  else if String.eqb (nm P f) "select" then Some 3%Z
  else if prefix "a" (nm P f) then Some 2%Z
  else if prefix "i" (nm P f) then Some 0%Z
  else None.

(** The criteria in the comments of che_to_precgen.c, most significant first; the last one is the
    order of first occurrence. *)
Definition criteria (P : problem) (m : pmethod) (f : sym) : list Z :=
  let arity := Z.of_nat (ari P f) in
  match m with
  | PNoMethod | PUnaryFirst => [yes (unary P f); arity]
  | PUnaryFirstFreq => [yes (unary P f); yes (negb (constant P f)); - freq P f]
  | PArity => [arity]
  | PInvArity => [- arity]
  | PConstMax => [yes (constant P f); arity]
  | PInvArConstMin => [yes (negb (constant P f)); - arity]
  | PByFrequency => [freq P f; arity]
  | PByInvFrequency => [- freq P f; arity]
  | PByInvConjFrequency => [yes (in_conjecture P f); - conjfreq P f; - freq P f; arity]
  | PByInvFreqConjMax => [yes (in_conjecture P f); - freq P f; arity]
  | PByInvFreqConjMin => [yes (negb (in_conjecture P f)); - freq P f; arity]
  | PByInvFreqConstMin => [yes (negb (constant P f)); - freq P f; arity]
  | PByInvFreqHack => [yes (top_unary P f); yes (negb (constant P f)); - freq P f; arity]
  | PArrayOpt => []
  end%Z.

(** [f] is to be placed below [g] *)
Definition documented_below (P : problem) (q : oparms) (f g : sym) : Prop :=
  (modifier P q f < modifier P q g)%Z \/
  (modifier P q f = modifier P q g /\
   match to_prec_gen q with
   | PArrayOpt => match store_select P f, store_select P g with
                  | Some a, Some b => (a < b)%Z
                  | _, _ => False
                  end
   | m => lexlt (criteria P m f ++ [posrank P f]) (criteria P m g ++ [posrank P g])
   end).

(** numbers below the constant the code takes for infinity *)
Definition moderate (P : problem) (q : oparms) : Prop :=
  forall f, 1 <= f <= sigsize P -> (Z.of_nat (ari P f) < 2000000 /\ 0 <= freq P f < 2000000 /\
    0 <= conjfreq P f < 2000000 /\ 0 <= posrank P f < 2000000 /\ - 1000000000 <= modifier P q f <= 1000000000)%Z.

(** What the methods of weight generation need: [U] holds of the symbols that occur in terms. *)
Definition no_const_weight (q : oparms) : Prop := to_const_weight q = 0%Z \/ to_const_weight q = (-1)%Z.
Definition has_greater (P : problem) (o : ocb) (f : sym) : Prop :=
  exists g, 2 <= g <= sigsize P /\ prec o g f = Greater.
Record suited (P : problem) (q : oparms) (o : ocb) (U : sym -> bool) : Prop := {
  (* variables weigh 4 with the modarity methods: no symbols added after the ordering was generated *)
  su_mod : is_modarity (to_weight_gen q) = true ->
    (-1 <= to_const_weight q)%Z /\ forall f, U f = true -> f <= sigsize P;
  (* the rank methods give weight 0 to what does not occur in the axioms *)
  su_occ : needs_occurrence (to_weight_gen q) = true -> forall f, U f = true -> 2 <= f <= sigsize P -> freq P f <> 0%Z;
  (* the methods that give weight 0 to the greatest symbol: it must not be a constant *)
  su_max : uses_max0 (to_weight_gen q) = true -> no_const_weight q ->
    forall f, U f = true -> 2 <= f <= sigsize P -> ari P f = 0 -> has_greater P o f;
  su_force : force_kbo_var_weight q = true -> no_const_weight q ->
    needs_occurrence (to_weight_gen q) = false /\
    (uses_max0 (to_weight_gen q) = true -> forall f, 2 <= f <= sigsize P -> ari P f = 0 -> has_greater P o f) }.

(** ** Precedence *)

(** Whatever the method, the problem and the sorting algorithm: the precedence is total, with $true at the bottom. *)
Theorem C60_precedence_total :
  forall P q order, sorted_codes P q order ->
    total_prec (prec_weighted P order) /\ lpo_precedence (prec_weighted P order) /\
    forall f, f <> sig_true -> prec_weighted P order f sig_true = Greater.
Proof.
  intros P q order H. destruct (weighted_total P order (sorted_perm _ _ _ H)) as [A B]. split; auto. split; auto.
  intros f N. unfold prec_weighted, fun_compare_w, fun_compare_gen.
  destruct (Nat.eqb_spec f sig_true); [congruence|]. rewrite Nat.eqb_refl. auto.
Qed.

Lemma top_unary_max P f : (forall g, 1 <= g <= sigsize P -> (0 <= freq P g)%Z) -> 1 <= f <= sigsize P ->
  top_unary P f = Nat.eqb (ari P f) 1 && Z.eqb (freq P f) (max_unary_freq P).
Proof.
  intros HF Hf. unfold top_unary, unary. destruct (Nat.eqb_spec (ari P f) 1) as [A|]; auto. simpl.
  unfold max_unary_freq.
  assert (G : forall l m, let r := fold_left (fun m i => if Nat.eqb (ari P i) 1 then Z.max m (freq P i) else m) l m in
     (m <= r)%Z /\ (forall g, In g l -> ari P g = 1 -> (freq P g <= r)%Z) /\
     (r = m \/ exists g, In g l /\ ari P g = 1 /\ r = freq P g)).
  { induction l as [|x l IH]; intros m; cbn [fold_left].
    - simpl. repeat split; auto; try lia; try (intros g []; fail).
    - destruct (Nat.eqb_spec (ari P x) 1) as [B|B].
      + destruct (IH (Z.max m (freq P x))) as [I1 [I2 I3]]. split; [lia|]. split.
        * intros g [->|Hg] Ag; [lia|auto].
        * destruct I3 as [I3|[g [I3 [I4 I5]]]]; [|right; exists g; split; [right; auto|auto]].
          destruct (Z.max_spec m (freq P x)) as [[_ M]|[_ M]].
          -- right. exists x. rewrite M in I3. split; [left; auto|]. rewrite M. auto.
          -- left. rewrite M in I3. rewrite M. auto.
      + destruct (IH m) as [I1 [I2 I3]]. split; [lia|]. split.
        * intros g [->|Hg] Ag; [congruence|auto].
        * destruct I3 as [I3|[g [I3 [I4 I5]]]]; [auto|right; exists g; split; [right; auto|auto]]. }
  destruct (G (seq 1 (sigsize P)) (-1)%Z) as [G1 [G2 G3]].
  set (r := fold_left _ _ _) in *.
  assert (Lf : (freq P f <= r)%Z) by (apply G2; auto; apply in_seq; lia).
  destruct (Z.eqb_spec (freq P f) r) as [E|E].
  - apply forallb_forall. intros g Hg. destruct (Nat.eqb_spec (ari P g) 1); auto. simpl. specialize (G2 g Hg e). lia.
  - destruct (forallb _ _) eqn:F; auto. exfalso. rewrite forallb_forall in F.
    destruct G3 as [G3|[g [I3 [I4 I5]]]]; [specialize (HF f Hf); lia|].
    specialize (F g I3). rewrite I4 in F. simpl in F. lia.
Qed.

Lemma prefix_other a b s d : a <> b -> prefix (String a EmptyString) s = true ->
  prefix (String b EmptyString) s = false /\ prefix (String b (String d EmptyString)) s = false.
Proof.
  destruct s as [|x s]; intros N H; cbn [prefix] in *; [discriminate|]. destruct (ascii_dec a x) as [->|]; [|discriminate].
  destruct (ascii_dec b x); [congruence|auto].
Qed.
Lemma prefix_sk a s : a <> "s"%char -> prefix (String a EmptyString) s = true -> String.eqb s "sk" = false.
Proof.
  destruct s as [|x s]; intros N H; auto. cbn [prefix] in *. destruct (ascii_dec a x) as [->|]; [|discriminate].
  apply String.eqb_neq. congruence.
Qed.

Lemma array_key_spec P f a : store_select P f = Some a ->
  (a = 4 /\ array_key P f = 30 \/ a = 3 /\ array_key P f = 25 \/ a = 2 /\ 10 <= array_key P f <= 15 \/ a = 0 /\ array_key P f <= 2)%Z.
Proof.
  unfold store_select, array_key, starts. destruct (String.eqb (nm P f) "store"); [intros [= <-]; auto|].
  destruct (String.eqb (nm P f) "select"); [intros [= <-]; auto|].
  destruct (prefix "a" (nm P f)) eqn:A.
  - intros [= <-]. right; right; left. split; auto.
    rewrite (prefix_sk "a" _ ltac:(discriminate) A). rewrite Bool.orb_true_l.
    destruct (prefix "a_" (nm P f) || prefix "b_" (nm P f)); lia.
  - destruct (prefix "i" (nm P f)) eqn:I; [|discriminate]. intros [= <-]. right; right; right. split; auto.
    rewrite (prefix_sk "i" _ ltac:(discriminate) I).
    destruct (prefix_other "i" "a" _ "_" ltac:(discriminate) I) as [_ ->].
    destruct (prefix_other "i" "b" _ "_" ltac:(discriminate) I) as [-> ->].
    destruct (prefix_other "i" "e" _ "_" ltac:(discriminate) I) as [-> ->]. simpl orb.
    destruct (prefix "i_" (nm P f)); lia.
Qed.

Lemma moderate_range P q : moderate P q -> in_range P q.
Proof.
  intros HM i j Hi Hj. apply in_codes in Hi, Hj. destruct (HM i ltac:(lia)) as [A1 [A2 [A3 [A4 A5]]]].
  destruct (HM j ltac:(lia)) as [B1 [B2 [B3 [B4 B5]]]].
  assert (K0 : forall x, key0 (entry_of P q x) = modifier P q x /\ rank (entry_of P q x) = posrank P x).
  { intros x. unfold entry_of. destruct (keys P (to_prec_gen q) x) as [[? ?] ?]. split; reflexivity. }
  destruct (K0 i) as [I0 I4], (K0 j) as [J0 J4]. cbv zeta. rewrite I0, I4, J0, J4.
  assert (K : forall x, 1 <= x <= sigsize P -> let e := entry_of P q x in
    (- 2000000 <= key1 e <= int_max /\ (key1 e < 0 -> to_prec_gen q <> PNoMethod /\ to_prec_gen q <> PUnaryFirst /\ to_prec_gen q <> PConstMax /\ to_prec_gen q <> PByInvConjFrequency) /\
     (2000000 < key1 e -> to_prec_gen q = PNoMethod \/ to_prec_gen q = PUnaryFirst \/ to_prec_gen q = PConstMax \/ to_prec_gen q = PByInvConjFrequency) /\
     - 2000000 <= key2 e <= 2000000 /\ - 2000000 <= key3 e <= 2000000)%Z).
  { intros x Hx. destruct (HM x Hx) as [C1 [C2 [C3 [C4 C5]]]]. unfold entry_of, int_max.
    destruct (to_prec_gen q); cbn [keys]; unfold int_max, freq_semi_infty, zar, array_key;
      repeat match goal with |- context [if ?b then _ else _] => destruct b end; cbn [key1 key2 key3];
      repeat split; try discriminate; try lia; auto. }
  destruct (K i ltac:(lia)) as [E1 [E2 [E3 [E4 E5]]]]. destruct (K j ltac:(lia)) as [F1 [F2 [F3 [F4 F5]]]].
  assert (- int_max - 1 <= key1 (entry_of P q i) - key1 (entry_of P q j) <= int_max)%Z.
  { unfold int_max in *. destruct (Z.lt_ge_cases (key1 (entry_of P q j)) 0) as [L|L].
    - destruct (F2 L) as [N1 [N2 [N3 N4]]]. destruct (Z.lt_ge_cases 2000000 (key1 (entry_of P q i))) as [M|M]; [|lia].
      destruct (E3 M) as [?|[?|[?|?]]]; congruence.
    - destruct (Z.lt_ge_cases (key1 (entry_of P q i)) 0) as [L'|L'].
      + destruct (E2 L') as [N1 [N2 [N3 N4]]]. destruct (Z.lt_ge_cases 2000000 (key1 (entry_of P q j))) as [M|M]; [|lia].
        destruct (F3 M) as [?|[?|[?|?]]]; congruence.
      + lia. }
  unfold int_max in *. repeat (apply Forall_cons; [lia|]). constructor.
Qed.

(** Of two symbols that are both distinct objects or both not, the one the comments put lower comes out lower. *)
Theorem C60_precedence_as_documented_partial :
  forall P q order f g, moderate P q -> sorted_codes P q order ->
    to_prec_gen q <> PUnaryFirstFreq ->
    (to_prec_gen q = PByInvFreqConstMin -> constant P f = true -> constant P g = false) ->
    2 <= f <= sigsize P -> 2 <= g <= sigsize P -> dst P f = dst P g ->
    documented_below P q f g -> prec_weighted P order f g = Lesser.
Proof.
  intros P q order f g HM HS Nu Nc Hf Hg HD HB.
  pose proof (moderate_range P q HM) as HR.
  assert (HFr : forall x, 1 <= x <= sigsize P -> (0 <= freq P x)%Z) by (intros x Hx; destruct (HM x Hx); lia).
  apply (sorted_prec P q); auto; try (apply in_codes; auto).
  destruct (HM f ltac:(lia)) as [A1 [A2 [A3 [A4 A5]]]]. destruct (HM g ltac:(lia)) as [B1 [B2 [B3 [B4 B5]]]].
  assert (M0 : forall x, key0 (entry_of P q x) = modifier P q x).
  { intros x. unfold entry_of. destruct (keys P (to_prec_gen q) x) as [[? ?] ?]. reflexivity. }
  unfold elist. cbn [lexlt]. rewrite !M0. destruct HB as [HB|[HE HB]]; [left; auto|]. right. split; auto. clear HE M0 A5 B5 HR.
  unfold entry_of.
  destruct (to_prec_gen q) eqn:EM; try congruence; cbn [criteria List.app lexlt] in HB; cbn [keys];
    try rewrite (top_unary_max P f HFr ltac:(lia)), (top_unary_max P g HFr ltac:(lia)) in HB;
    unfold unary, constant, in_conjecture, yes, zar, int_max, freq_semi_infty in *.
  all: try (repeat match goal with
        | H : context [Nat.eqb ?a ?b] |- _ => destruct (Nat.eqb_spec a b)
        | H : context [Z.eqb ?a ?b] |- _ => destruct (Z.eqb_spec a b)
        | |- context [Nat.eqb ?a ?b] => destruct (Nat.eqb_spec a b)
        | |- context [Z.eqb ?a ?b] => destruct (Z.eqb_spec a b)
        end; cbn in *; first [lia | specialize (Nc eq_refl eq_refl); discriminate]).
  destruct (store_select P f) as [a|] eqn:F; [|tauto]. destruct (store_select P g) as [b|] eqn:G; [|tauto].
  pose proof (array_key_spec P f a F). pose proof (array_key_spec P g b G).
  assert (K : (array_key P f < array_key P g)%Z) by lia. cbn. lia.
Qed.

(** ** Weights *)

Section Transfer.
  Variables (o o' : ocb) (ar : sym -> nat) (U : sym -> bool).
  Hypothesis Hf : forall f, U f = true -> fw o f = fw o' f.
  Hypothesis Hv : vw o = vw o'.
  Hypothesis Hp : forall f g, prec o f g = prec o' f g.
  Hypothesis HT : total_prec (prec o').
  Hypothesis HA : admissible o' ar.

  Lemma compare_same s t k : insig U s = true -> insig U t = true -> kbo6_compare o k s t = kbo6_compare o' k s t.
  Proof. intros Hs Ht. unfold kbo6_compare. apply (kbolincmp_cong o o' U Hf Hv Hp); auto. Qed.

  Lemma compared_kreach k : compared o ar U k -> kreach o' ar k.
  Proof. induction 1; [constructor|]. rewrite compare_same by auto. constructor; auto. Qed.

  Lemma greater_same s t : arok ar s = true -> arok ar t = true -> insig U s = true -> insig U t = true ->
    (greater o ar U s t <-> says_greater o' ar s t).
  Proof.
    intros As At Hs Ht. split.
    - intros [k [Hk H]]. exists k. split; [apply compared_kreach; auto|]. rewrite <- compare_same; auto.
    - intros H. exists kinit. split; [constructor|]. rewrite compare_same by auto.
      apply (says_greater_kbo o' ar HT HA s t As At) in H.
      rewrite <- (C05_kbo_greater_decides o' ar kinit s t HT HA (kreach_init o' ar) As At) in H.
      unfold kbo6_greater in H. destruct (kbo6_compare o' kinit s t) as [r k']. simpl in *. destruct r; auto; discriminate.
  Qed.

  Lemma good_subterm t u : arok ar t = true -> insig U t = true -> In u (subterms t) -> arok ar u = true /\ insig U u = true.
  Proof.
    induction t as [x|f a IH] using term_ind'; intros Ht Hu Hin.
    - simpl in Hin. destruct Hin as [<-|[]]. auto.
    - simpl in Hin. destruct Hin as [<-|Hin]; auto.
      apply in_flat_map in Hin. destruct Hin as [v [Hv' Hu']].
      rewrite Forall_forall in IH. apply arok_fun in Ht. destruct Ht as [_ HF]. apply insig_fun in Hu. destruct Hu as [_ HG].
      rewrite Forall_forall in HF, HG. apply (IH v); auto.
  Qed.
  Lemma insig_app sg t : (forall x, insig U (sg x) = true) -> insig U t = true -> insig U (app sg t) = true.
  Proof.
    intros H. induction t as [x|f a IH] using term_ind'; intros Ht; simpl; auto.
    simpl in Ht. apply andb_prop in Ht. destruct Ht as [-> Ht]. simpl.
    rewrite forallb_forall in *. rewrite Forall_forall in IH. intros u Hu. apply in_map_iff in Hu. destruct Hu as [v [<- Hv']]. auto.
  Qed.

  Lemma transfer : reduction_ordering (greater o ar U) ar U.
  Proof.
    split.
    - intros t Ht Hu H. apply greater_same in H; auto. revert H. apply C06_irreflexive; auto.
    - intros s t u As Us At Ut Au Uu H1 H2. apply greater_same in H1; auto. apply greater_same in H2; auto. apply greater_same; auto.
      eapply C06_transitive with (t := t); eauto.
    - intros f l r s t As Us At Ut H.
      assert (Gs : arok ar s = true /\ insig U s = true).
      { apply (good_subterm (Fun f (l ++ s :: r))); auto. simpl. right. apply in_flat_map. exists s.
        split; [apply in_or_app; right; left; auto|destruct s; left; auto]. }
      assert (Gt : arok ar t = true /\ insig U t = true).
      { apply (good_subterm (Fun f (l ++ t :: r))); auto. simpl. right. apply in_flat_map. exists t.
        split; [apply in_or_app; right; left; auto|destruct t; left; auto]. }
      destruct Gs, Gt. apply greater_same in H; auto. apply greater_same; auto. apply C06_monotone; auto.
    - intros sg s t Hsg As Us At Ut H. apply greater_same in H; auto.
      apply greater_same; try apply arok_app; try apply insig_app; try apply C06_stable_under_substitution; auto; intros x; apply Hsg.
    - intros t u At Ut Hin N. destruct (good_subterm t u At Ut Hin). apply greater_same; auto. apply C06_subterm; auto.
    - intros s t As Us At Ut Gs Gt. rewrite !greater_same by auto. apply C06_total_on_ground_terms; auto.
    - intros sig chain HG H. apply (C06_no_infinite_descent o' ar HT HA sig chain).
      + intros i. destruct (HG i) as [A [_ B]]. auto.
      + intros i. destruct (HG i) as [A [B _]], (HG (S i)) as [A' [B' _]]. apply greater_same; auto.
  Qed.
End Transfer.

Lemma created_repaired P q o U : created P q o -> distinct_are_constants P -> (forall f, U f = true -> 1 <= f) -> suited P q o U ->
  total_prec (prec o) /\ exists o', admissible o' (ari P) /\ vw o = vw o' /\ (forall f g, prec o f g = prec o' f g) /\
    forall f, U f = true -> fw o f = fw o' f.
Proof.
  intros [order [wsrt [psrt [HS [HW [HP ->]]]]]] HD HU [S1 S2 S3 S4].
  pose proof (sorted_perm _ _ _ HS) as HO.
  set (o := generate P (prec_weighted P order) (select q) wsrt psrt) in *.
  assert (EP : prec o = prec_weighted P order) by apply o_prec.
  assert (NC : to_const_weight (select q) = (-1)%Z <-> no_const_weight q).
  { unfold select, select_const_weight, no_const_weight. cbn [to_const_weight].
    destruct (Z.eqb_spec (to_const_weight q) 0); [tauto|]. split; [auto|intros [?|?]; tauto]. }
  split; [rewrite EP; apply (weighted_total P order HO)|].
  exists (repaired P (select q) order wsrt psrt U). split; [|split; [|split]]; auto.
  - apply repaired_admissible; auto.
    + intros M. destruct (S1 M) as [A B]. split; auto. unfold select, select_const_weight. cbn [to_const_weight].
      destruct (Z.eqb_spec (to_const_weight q) 0); lia.
    + intros M C f Uf Hf Ha. rewrite <- EP. apply (S3 M (proj1 NC C) f); auto.
    + intros F C. destruct (S4 F (proj1 NC C)) as [A B]. split; auto. intros M f Hf Ha. rewrite <- EP. apply (B M f); auto.
  - intros f g. simpl. rewrite EP. auto.
  - intros f Hf. simpl. rewrite Hf. auto.
Qed.

(** The generated ordering satisfies the conditions under which C05 and C06 hold of the KBO, for the symbols in use. *)
Theorem C60_weights_admissible_partial :
  forall P q o U, created P q o -> distinct_are_constants P -> (forall f, U f = true -> 1 <= f) -> suited P q o U ->
    total_prec (prec o) /\ (0 < vw o)%Z /\
    (forall f, U f = true -> (0 <= fw o f)%Z) /\
    (forall f, U f = true -> ari P f = 0 -> (vw o <= fw o f)%Z) /\
    (forall f g, U f = true -> ari P f = 1 -> fw o f = 0%Z -> f <> g -> prec o f g = Greater).
Proof.
  intros P q o U HC HD HU HS. destruct (created_repaired P q o U HC HD HU HS) as [HT [o' [HA [HV [HP HF]]]]].
  split; auto. split; [rewrite HV; apply (ad_var _ _ HA)|]. split; [|split].
  - intros f Uf. rewrite (HF f Uf). apply (ad_nonneg _ _ HA).
  - intros f Uf Ha. rewrite (HF f Uf), HV. apply (ad_const _ _ HA); auto.
  - intros f g Uf Ha W N. rewrite HP. rewrite (HF f Uf) in W. apply (ad_unary _ _ HA); auto.
Qed.

(** Comparing with the generated ordering is comparing in a reduction ordering. *)
Theorem C60_generated_ordering_partial :
  forall P q o U, created P q o -> distinct_are_constants P -> (forall f, U f = true -> 1 <= f) -> suited P q o U ->
    reduction_ordering (greater o (ari P) U) (ari P) U.
Proof.
  intros P q o U HC HD HU HS. destruct (created_repaired P q o U HC HD HU HS) as [HT [o' [HA [HV [HP HF]]]]].
  apply (transfer o o'); auto.
  assert (E : forall f g, prec o' f g = prec o f g) by auto. clear - HT E.
  split; intros; rewrite ?E in *; try apply HT; auto. eapply (tp_trans _ HT); eauto.
Qed.

(** No condition at all when constants are given a positive weight (to_const_weight >= 1, as in nearly all of
    the strategies shipped) and the method is neither a modarity nor one of the occurrence-rank methods;
    symbols added later are covered. *)
Theorem C60_generated_ordering_const_weight :
  forall P q o, created P q o -> distinct_are_constants P ->
    (1 <= to_const_weight q)%Z -> is_modarity (to_weight_gen q) = false -> needs_occurrence (to_weight_gen q) = false ->
    reduction_ordering (greater o (ari P) (Nat.leb 1)) (ari P) (Nat.leb 1).
Proof.
  intros P q o HC HD H1 H2 H3. apply (C60_generated_ordering_partial P q); auto.
  - intros f H. apply Nat.leb_le. auto.
  - split; try congruence; unfold no_const_weight; intros; lia.
Qed.

(** ** Concrete cases *)

Lemma qsorted_list c l l' : Permutation l l' ->
  ForallOrdPairs (fun a b => match c a b with Some x => (x <=? 0)%Z | None => false end = true) l' -> qsorted c l l'.
Proof.
  intros HP HF. split; auto. intros _ i j a b L Ha Hb. clear HP.
  revert i j a b L Ha Hb. induction HF as [|x l' H HF IH]; intros i j a b L Ha Hb; [destruct i; discriminate|].
  destruct j; [lia|]. destruct i.
  - injection Ha as <-. cbn [nth_error] in Hb. apply nth_error_In in Hb. rewrite Forall_forall in H. specialize (H b Hb).
    destruct (c x b) as [z|]; [|discriminate]. exists z. split; auto. lia.
  - apply (IH i j); auto. lia.
Qed.

(** a problem given by the arities and frequencies of the symbols 2, 3, ... *)
Definition small (l : list (nat * Z)) : problem :=
  {| sigsize := S (length l);
     ari := fun f => match f with S (S i) => fst (nth i l (0, 0%Z)) | _ => 0 end;
     dst := fun _ => false; nm := fun _ => EmptyString;
     freq := fun f => match f with S (S i) => snd (nth i l (0, 0%Z)) | _ => 0%Z end;
     conjfreq := fun _ => 0%Z; axiomfreq := fun _ => 1%Z; posrank := fun f => Z.of_nat f;
     skolem := fun _ => false; defpred := fun _ => false |}.
Definition parms (m : pmethod) (w : wmethod) (c : Z) : oparms :=
  {| to_prec_gen := m; to_weight_gen := w; to_const_weight := c; force_kbo_var_weight := false;
     conj_only_mod := 0; conj_axiom_mod := 0; axiom_only_mod := 0; skolem_mod := 0; defpred_mod := 0 |}.

Lemma sorted_small P q order : Permutation (codes P) order ->
  ForallOrdPairs (fun a b => match feature_compare a b with Some x => (x <=? 0)%Z | None => false end = true) (map (entry_of P q) order) ->
  sorted_codes P q order.
Proof.
  intros HP HF. exists (map (entry_of P q) order). split.
  - apply qsorted_list; auto. apply Permutation_map; auto.
  - rewrite map_map. rewrite <- (map_id order) at 1. apply map_ext. intros i.
    unfold entry_of. destruct (keys P (to_prec_gen q) i) as [[? ?] ?]. reflexivity.
Qed.

Ltac pairs := repeat match goal with |- ForallOrdPairs _ _ => constructor | |- Forall _ _ => constructor end; vm_compute; reflexivity.

Lemma created_small P q order : Permutation (codes P) order -> sorted_codes P (select q) order ->
  created P q (generate P (prec_weighted P order) (select q) (codes P) (codes P)).
Proof. intros HP HS. exists order, (codes P), (codes P). auto. Qed.

(** The default parameters: a constant, a unary and a binary symbol, in the order a < g < f, f of weight 0. *)
Definition ex_problem : problem := small [(0, 5%Z); (1, 3%Z); (2, 3%Z)].
Definition ex_parms : oparms := parms PNoMethod WNoMethod 0.
Definition ex_order : list sym := [2; 4; 3].
Definition ex_ocb : ocb := generate ex_problem (prec_weighted ex_problem ex_order) (select ex_parms) (codes ex_problem) (codes ex_problem).

Lemma ex_perm : Permutation (codes ex_problem) ex_order.
Proof. unfold codes, ex_order. simpl. constructor. apply perm_swap. Qed.
Lemma ex_sorted : sorted_codes ex_problem ex_parms ex_order.
Proof. apply sorted_small; [apply ex_perm|]. pairs. Qed.

Example ex_moderate : moderate ex_problem ex_parms.
Proof.
  intros f Hf. change (sigsize ex_problem) with 4 in Hf.
  destruct f as [|[|[|[|[|f]]]]]; try lia; vm_compute; intuition congruence.
Qed.
Example ex_created : created ex_problem ex_parms ex_ocb.
Proof. apply created_small; [apply ex_perm|]. apply sorted_small; [apply ex_perm|]. pairs. Qed.
Example ex_suited : suited ex_problem ex_parms ex_ocb (Nat.leb 1).
Proof.
  split; try discriminate. intros _ _ f _ Hf Ha. change (sigsize ex_problem) with 4 in Hf.
  exists 3. split; [change (sigsize ex_problem) with 4; lia|].
  destruct f as [|[|[|[|[|f]]]]]; try lia; try discriminate Ha. reflexivity.
Qed.
Example ex_documented : documented_below ex_problem ex_parms 4 3 /\ prec_weighted ex_problem ex_order 4 3 = Lesser.
Proof. split; [right; split; [reflexivity|left; reflexivity]|reflexivity]. Qed.
Example ex_reduction : reduction_ordering (greater ex_ocb (ari ex_problem) (Nat.leb 1)) (ari ex_problem) (Nat.leb 1) /\
  fw ex_ocb 3 = 0%Z /\ fst (kbo6_compare ex_ocb kinit (Fun 3 [Fun 4 [Var 0; Var 0]]) (Fun 4 [Var 0; Var 0])) = Greater.
Proof.
  split; [|split; vm_compute; reflexivity].
  apply (C60_generated_ordering_partial ex_problem ex_parms); [apply ex_created| |intros f H; apply Nat.leb_le; auto|apply ex_suited].
  intros f H. discriminate.
Qed.

(** The parameters of most strategies shipped (invfreq precedence, invfreqrank weights, constants 1). *)
Definition ex2_parms : oparms := parms PByInvFrequency WInvFrequencyRank 1.
Example ex2_created : created ex_problem ex2_parms
  (generate ex_problem (prec_weighted ex_problem [2; 3; 4]) (select ex2_parms) (codes ex_problem) (codes ex_problem)).
Proof. apply created_small; [apply Permutation_refl|]. apply sorted_small; [apply Permutation_refl|]. pairs. Qed.

(** ** Where the property fails *)

(** Default weights and a precedence that puts a constant on top: the constant weighs 0, less than a variable.
    The comparison finds f(X,a) greater than f(a,a), and an instance of the former is the latter: an equation
    f(X,a) = f(a,a) becomes a rewrite rule that applies to its own right-hand side. *)
Theorem C60_maximal_constant_refuted :
  exists P q o, created P q o /\ distinct_are_constants P /\
    to_const_weight q = 0%Z /\ to_weight_gen q = WNoMethod /\
    fst (kbo6_compare o kinit (Fun 3 [Var 0; Fun 2 []]) (Fun 3 [Fun 2 []; Fun 2 []])) = Greater /\
    app (fun _ => Fun 2 []) (Fun 3 [Var 0; Fun 2 []]) = Fun 3 [Fun 2 []; Fun 2 []] /\
    ~ reduction_ordering (greater o (ari P) (Nat.leb 1)) (ari P) (Nat.leb 1).
Proof.
  pose (P := small [(0, 1%Z); (2, 1%Z)]). pose (q := parms PInvArity WNoMethod 0).
  pose (o := generate P (prec_weighted P [3; 2]) (select q) (codes P) (codes P)).
  assert (HP : Permutation (codes P) [3; 2]) by (apply perm_swap).
  assert (HG : fst (kbo6_compare o kinit (Fun 3 [Var 0; Fun 2 []]) (Fun 3 [Fun 2 []; Fun 2 []])) = Greater) by (vm_compute; reflexivity).
  exists P, q, o. split; [|split; [|split; [|split; [|split; [|split]]]]]; auto.
  - apply created_small; auto. apply sorted_small; auto. unfold q. pairs.
  - intros f H. discriminate.
  - intros R. assert (G : greater o (ari P) (Nat.leb 1) (Fun 3 [Var 0; Fun 2 []]) (Fun 3 [Fun 2 []; Fun 2 []])) by (exists kinit; split; [constructor|auto]).
    apply (ro_stable _ _ _ R (fun _ => Fun 2 [])) in G; auto. revert G. apply (ro_irrefl _ _ _ R); auto.
Qed.

(** The modarity weights: variables weigh 4, a constant added after the ordering was generated weighs 1. *)
Theorem C60_modarity_new_constant_refuted :
  exists P q o, created P q o /\ distinct_are_constants P /\ to_weight_gen q = WModArityWeight /\
    sigsize P < 4 /\ ari P 4 = 0 /\
    fst (kbo6_compare o kinit (Fun 3 [Var 0; Fun 4 []]) (Fun 3 [Fun 4 []; Fun 4 []])) = Greater /\
    fst (kbo6_compare o kinit (Fun sig_true []) (Fun 4 [])) = Greater /\ prec o (sig_true) 4 = Lesser /\
    ~ reduction_ordering (greater o (ari P) (Nat.leb 1)) (ari P) (Nat.leb 1).
Proof.
  pose (P := small [(0, 1%Z); (2, 1%Z)]). pose (q := parms PArity WModArityWeight 0).
  pose (o := generate P (prec_weighted P [2; 3]) (select q) (codes P) (codes P)).
  assert (HG : fst (kbo6_compare o kinit (Fun 3 [Var 0; Fun 4 []]) (Fun 3 [Fun 4 []; Fun 4 []])) = Greater) by (vm_compute; reflexivity).
  exists P, q, o. split; [|split; [|split; [|split; [|split; [|split; [|split; [|split]]]]]]]; auto.
  - apply created_small; [apply Permutation_refl|]. apply sorted_small; [apply Permutation_refl|]. unfold q. pairs.
  - intros f H. discriminate.
  - intros R. assert (G : greater o (ari P) (Nat.leb 1) (Fun 3 [Var 0; Fun 4 []]) (Fun 3 [Fun 4 []; Fun 4 []])) by (exists kinit; split; [constructor|auto]).
    apply (ro_stable _ _ _ R (fun _ => Fun 4 [])) in G; auto. revert G. apply (ro_irrefl _ _ _ R); auto.
Qed.

(** The rank methods give weight 0 to a symbol that does not occur in the axioms (here 3), wherever it is in the precedence;
    such symbols come from a watch list, which is read before the ordering is generated (eprover.c:683,768). *)
Theorem C60_unused_symbol_refuted :
  exists P q o, created P q o /\ distinct_are_constants P /\ to_weight_gen q = WInvModFreqRank /\ to_const_weight q = 1%Z /\
    In (Fun 4 [Var 0; Var 0]) (subterms (Fun 3 [Fun 4 [Var 0; Var 0]])) /\
    fst (kbo6_compare o kinit (Fun 3 [Fun 4 [Var 0; Var 0]]) (Fun 4 [Var 0; Var 0])) <> Greater.
Proof.
  pose (P := small [(0, 5%Z); (1, 0%Z); (2, 3%Z)]). pose (q := parms PArity WInvModFreqRank 1).
  exists P, q, (generate P (prec_weighted P [2; 3; 4]) (select q) [2; 4; 3] (codes P)).
  split; [|split; [|split; [|split; [|split]]]]; auto.
  - exists [2; 3; 4], [2; 4; 3], (codes P). split; [|split; [|split]]; auto.
    + apply sorted_small; [apply Permutation_refl|]. unfold q. pairs.
    + unfold codes. simpl. constructor. apply perm_swap.
  - intros f H. discriminate.
  - simpl. auto.
  - vm_compute. discriminate.
Qed.

(** With a user precedence (--precedence) the generated one is added to it tuple by tuple and refused tuples are
    skipped, so the result need not be total; the first maximal symbol gets weight 0 although it is not the greatest:
    f(g(X,X)) is then not greater than its subterm g(X,X). *)
Theorem C60_user_precedence_refuted :
  exists P q st p o, add_tuple (sigsize P) (dst P) 100 (pinit) 2 3 Greater = Some (st) /\
    sorted_codes P q [2; 3; 4] /\ prec_matrix P (snd st) [2; 3; 4] = Some p /\
    p 2 4 = Uncomparable /\ o = generate P p (select q) (codes P) (codes P) /\ to_weight_gen q = WNoMethod /\
    ari P 2 = 1 /\ fw o 2 = 0%Z /\
    fst (kbo6_compare o kinit (Fun 2 [Fun 4 [Var 0; Var 0]]) (Fun 4 [Var 0; Var 0])) <> Greater.
Proof.
  pose (P := small [(1, 1%Z); (1, 1%Z); (2, 1%Z)]). pose (q := parms PArity WNoMethod 0).
  destruct (add_tuple (sigsize P) (dst P) 100 pinit 2 3 Greater) as [st|] eqn:E; [|vm_compute in E; discriminate].
  destruct (prec_matrix P (snd st) [2; 3; 4]) as [p|] eqn:F.
  2: { exfalso. vm_compute in E. injection E as <-. vm_compute in F. discriminate. }
  exists P, q, st, p, (generate P p (select q) (codes P) (codes P)).
  assert (HS : sorted_codes P q [2; 3; 4]) by (apply sorted_small; [apply Permutation_refl|]; unfold q; pairs).
  vm_compute in E. injection E as <-. vm_compute in F. injection F as <-.
  split; [vm_compute; reflexivity|]. split; auto. split; [vm_compute; reflexivity|].
  split; [vm_compute; reflexivity|]. split; auto. split; auto. split; auto.
  split; [vm_compute; reflexivity|]. vm_compute. discriminate.
Qed.

(** The constant designated as smallest (used to instantiate variables that only occur on one side of an equation)
    is the one with the lowest code, whatever the precedence says ... *)
Theorem C60_min_constant_refuted :
  exists P q order c d, sorted_codes P q order /\
    min_const_weighted P (fun _ => 0) (fun f => Nat.eqb (ari P f) 0) 0 = Some c /\
    2 <= d <= sigsize P /\ ari P d = 0 /\ prec_weighted P order d c = Lesser.
Proof.
  exists (small [(0, 1%Z); (0, 2%Z)]), (parms PByInvFrequency WNoMethod 0), [3; 2], 2, 3.
  split; [|split; [reflexivity|split; [simpl; lia|split; [reflexivity|vm_compute; reflexivity]]]].
  apply sorted_small; [apply perm_swap|]. pairs.
Qed.
(** ... and with a user precedence it is the greatest. *)
Theorem C60_min_constant_matrix :
  forall P p typ fconst t c, total_prec p -> min_const_matrix P p typ fconst t = Some c ->
    In c (codes P) /\ fconst c = true /\ typ c = t /\
    forall d, In d (codes P) -> fconst d = true -> typ d = t -> d <> c -> p c d = Greater.
Proof.
  intros P p typ fconst t c HT. unfold min_const_matrix.
  assert (G : forall l r, let res := fold_left (fun c i => if fconst i && Nat.eqb (typ i) t
                          then match c with None => Some i | Some d => if cmp_eqb (p i d) Greater then Some i else c end
                          else c) l r in
     (forall x, r = Some x -> fconst x = true /\ typ x = t) ->
     forall c, res = Some c -> (In c l \/ r = Some c) /\ fconst c = true /\ typ c = t /\
       (forall x, r = Some x -> x = c \/ p c x = Greater) /\
       forall d, In d l -> fconst d = true -> typ d = t -> d <> c -> p c d = Greater).
  { induction l as [|i l IH]; intros r; cbn [fold_left]; intros Hr c' Hc.
    - subst r. destruct (Hr c' eq_refl). repeat split; auto. intros x [= <-]. auto. intros d [].
    - destruct (fconst i && Nat.eqb (typ i) t) eqn:Ei.
      + apply andb_prop in Ei. destruct Ei as [Fi Ti]. apply Nat.eqb_eq in Ti.
        destruct r as [x|].
        * destruct (cmp_eqb (p i x) Greater) eqn:G.
          -- assert (Gx : p i x = Greater) by (destruct (p i x); auto; discriminate).
             destruct (IH (Some i) ltac:(intros y [= <-]; auto) c' Hc) as [A [B [C [D E]]]].
             assert (Di : i = c' \/ p c' i = Greater) by auto. split; [|split; [|split; [|split]]]; auto.
             ++ left. destruct A as [A|[= <-]]; [right; auto|left; auto].
             ++ intros y [= <-]. right. destruct Di as [<-|Di]; auto. eapply (tp_trans _ HT); eauto.
             ++ intros d [->|Hd] Fd Td N; auto. destruct Di; [congruence|auto].
          -- destruct (IH (Some x) Hr c' Hc) as [A [B [C [D E]]]].
             assert (Dx : x = c' \/ p c' x = Greater) by auto. split; [|split; [|split; [|split]]]; auto.
             ++ destruct A as [A|A]; [left; right; auto|right; auto].
             ++ intros d [->|Hd] Fd Td N; auto.
                destruct (Nat.eq_dec d x) as [->|Nx]; [destruct Dx; [congruence|auto]|].
                assert (Gd : p x d = Greater).
                { rewrite (tp_inv _ HT). destruct (tp_total _ HT d x Nx) as [Z|Z]; rewrite Z in *; [discriminate|reflexivity]. }
                destruct Dx as [<-|Dx]; auto. eapply (tp_trans _ HT); eauto.
        * destruct (IH (Some i) ltac:(intros y [= <-]; auto) c' Hc) as [A [B [C [D E]]]].
          assert (Di : i = c' \/ p c' i = Greater) by auto. split; [|split; [|split; [|split]]]; auto.
          -- left. destruct A as [A|[= <-]]; [right; auto|left; auto].
          -- intros y [=].
          -- intros d [->|Hd] Fd Td N; auto. destruct Di; [congruence|auto].
      + destruct (IH r Hr c' Hc) as [A [B [C [D E]]]]. split; [|split; [|split; [|split]]]; auto.
        * destruct A as [A|A]; [left; right; auto|right; auto].
        * intros d [->|Hd] Fd Td N; auto. rewrite Fd, Td, Nat.eqb_refl in Ei. discriminate. }
  intros H. destruct (G (codes P) None ltac:(discriminate) c H) as [[A|A] [B [C [_ D]]]]; [auto|discriminate].
Qed.

(** "Sort symbols by frequency (rarer symbols are larger), but put unary symbols first": more frequent ones are larger. *)
Theorem C60_unary_first_freq_refuted :
  exists P q order f g, moderate P q /\ sorted_codes P q order /\ to_prec_gen q = PUnaryFirstFreq /\
    documented_below P q f g /\ prec_weighted P order f g = Greater.
Proof.
  exists (small [(2, 1%Z); (2, 7%Z)]), (parms PUnaryFirstFreq WNoMethod 0), [2; 3], 3, 2.
  split; [|split; [|split; [|split]]]; auto.
  - intros f Hf. simpl in Hf. destruct f as [|[|[|[|f]]]]; try lia; vm_compute; intuition congruence.
  - apply sorted_small; [apply Permutation_refl|]. pairs.
  - right. split; [reflexivity|]. cbn [criteria to_prec_gen parms List.app lexlt].
    repeat first [left; reflexivity|right; split; [reflexivity|]].
Qed.

(** "Sort symbols by inverse frequency, but make constants minimal": constants are sorted by frequency. *)
Theorem C60_invfreq_constmin_refuted :
  exists P q order f g, moderate P q /\ sorted_codes P q order /\ to_prec_gen q = PByInvFreqConstMin /\
    documented_below P q f g /\ prec_weighted P order f g = Greater.
Proof.
  exists (small [(0, 1%Z); (0, 7%Z)]), (parms PByInvFreqConstMin WNoMethod 0), [2; 3], 3, 2.
  split; [|split; [|split; [|split]]]; auto.
  - intros f Hf. simpl in Hf. destruct f as [|[|[|[|f]]]]; try lia; vm_compute; intuition congruence.
  - apply sorted_small; [apply Permutation_refl|]. pairs.
  - right. split; [reflexivity|]. cbn [criteria to_prec_gen parms List.app lexlt].
    repeat first [left; reflexivity|right; split; [reflexivity|]].
Qed.

(** "... make constants minimal" only holds up to two million occurrences. *)
Theorem C60_semi_infinity_refuted :
  exists P q order, sorted_codes P q order /\ to_prec_gen q = PByInvFreqConstMin /\
    constant P 3 = false /\ constant P 2 = true /\ prec_weighted P order 3 2 = Lesser.
Proof.
  exists (small [(0, 1%Z); (1, 2000001%Z)]), (parms PByInvFreqConstMin WNoMethod 0), [3; 2].
  split; [|split; [|split; [|split]]]; auto. apply sorted_small; [apply perm_swap|]. pairs.
Qed.

Print Assumptions C60_precedence_total.
Print Assumptions C60_precedence_as_documented_partial.
Print Assumptions C60_weights_admissible_partial.
Print Assumptions C60_generated_ordering_partial.
Print Assumptions C60_generated_ordering_const_weight.
Print Assumptions C60_min_constant_matrix.
Print Assumptions C60_maximal_constant_refuted.
Print Assumptions C60_modarity_new_constant_refuted.
Print Assumptions C60_unused_symbol_refuted.
Print Assumptions C60_user_precedence_refuted.
Print Assumptions C60_min_constant_refuted.
Print Assumptions C60_unary_first_freq_refuted.
Print Assumptions C60_invfreq_constmin_refuted.
Print Assumptions C60_semi_infinity_refuted.
