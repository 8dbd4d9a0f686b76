(** * Proofs about axiom selection. *)
From Coq Require Import Permutation.
From Verif Require Import Sine.

Lemma mem_iff i l : mem i l = true <-> In i l.
Proof. unfold mem. destruct (in_dec item_eq_dec i l); split; auto; discriminate. Qed.
Lemma has_iff s l : has s l = true <-> In s l.
Proof. unfold has. rewrite existsb_exists. split; [intros [x [A B]]; apply Nat.eqb_eq in B; subst; auto|intros H; exists s; split; auto; apply Nat.eqb_refl]. Qed.
Lemma has_false s l : has s l = false <-> ~ In s l.
Proof. rewrite <- has_iff. destruct (has s l); split; congruence. Qed.

(** ** Moving *)
Lemma remove_length_le (i : item) l : length (remove item_eq_dec i l) <= length l.
Proof. induction l as [|a l IH]; cbn; [lia|]. destruct (item_eq_dec i a); cbn; lia. Qed.
Lemma remove_nodup (i : item) l : NoDup l -> NoDup (remove item_eq_dec i l).
Proof.
  induction 1 as [|a l N H IH]; cbn; [constructor|]. destruct (item_eq_dec i a); auto. constructor; auto. intros X. apply in_remove in X. tauto.
Qed.
Lemma move_spec set i : NoDup set -> NoDup (move set i) /\ forall j, In j (move set i) <-> In j set \/ j = i.
Proof.
  intros H. unfold move. split.
  - assert (X : NoDup (i :: remove item_eq_dec i set)) by (constructor; [apply remove_In|apply remove_nodup; auto]).
    eapply Permutation_NoDup; [|exact X]. apply Permutation_cons_append.
  - intros j. rewrite in_app_iff. cbn. destruct (item_eq_dec j i) as [->|N]; [tauto|]. split.
    + intros [X|[X|[]]]; [apply in_remove in X; tauto|congruence].
    + intros [X|X]; [left; apply in_in_remove; auto|contradiction].
Qed.
Lemma moved_spec l : NoDup (moved l) /\ forall j, In j (moved l) <-> In j l.
Proof.
  assert (G : forall l set, NoDup set -> NoDup (fold_left move l set) /\ forall j, In j (fold_left move l set) <-> In j set \/ In j l).
  { clear l. induction l as [|i l IH]; intros set H; cbn [fold_left]; [split; auto; intros j; cbn; tauto|].
    destruct (move_spec set i H) as [A B]. destruct (IH _ A) as [C D]. split; auto. intros j. rewrite D, B. cbn. split; [intros [[X|X]|X]; auto|intros [X|[X|X]]; auto]. }
  destruct (G l [] (NoDup_nil _)) as [A B]. split; [exact A|]. intros j. unfold moved. rewrite B. cbn. tauto.
Qed.
(** the number of lost items *)
Lemma lost_spec (l new : list item) : NoDup l -> NoDup new -> incl new l ->
  (0 <= Z.of_nat (length l) - Z.of_nat (length new))%Z /\ ((Z.of_nat (length l) - Z.of_nat (length new))%Z = 0%Z <-> incl l new).
Proof.
  intros A B C. pose proof (NoDup_incl_length B C). split; [lia|]. split.
  - intros X. apply (NoDup_length_incl B); auto. lia.
  - intros X. pose proof (NoDup_incl_length A X). lia.
Qed.

(** ** Selection *)
Section Select.
  Variables (internal : nat) (symbols dsyms : item -> list nat) (axioms seeds : list item).
  Notation R := (triggered internal symbols dsyms axioms seeds).
  Notation drel := (drel dsyms axioms).
  Notation activate := (activate internal dsyms axioms).

  Lemma in_filed j s : In j (filed dsyms axioms s) <-> In j axioms /\ In s (keys dsyms j).
  Proof.
    clear internal symbols seeds. unfold filed. rewrite in_flat_map. split.
    - intros [i [A B]]. pose proof (repeat_spec _ _ _ B) as ->. split; auto. destruct (count_occ Nat.eq_dec (keys dsyms i) s) eqn:Q; [destruct B|]. apply (count_occ_In Nat.eq_dec). lia.
    - intros [A B]. exists j. split; auto. apply (count_occ_In Nat.eq_dec) in B. destruct (count_occ Nat.eq_dec (keys dsyms j) s); [lia|]. left; auto.
  Qed.
  Lemma in_drel j s : In j (drel s) <-> In j axioms /\ In s (keys dsyms j).
  Proof. clear internal symbols seeds. unfold Sine.drel. rewrite in_app_iff, !filter_In, in_filed. destruct (is_clause j); cbn; intuition congruence. Qed.
  Lemma drel_pos j s : internal < s -> (In j (drel s) <-> In j axioms /\ In s (dsyms j)).
  Proof.
    intros H. rewrite in_drel. unfold keys. destruct (dsyms j) as [|a l]; [|tauto]. cbn. split; [intros [_ [X|[]]]; lia|intros [_ []]].
  Qed.

  Lemma activate_spec : forall ss a a' new, activate ss a = (a', new) ->
    incl a a' /\ (forall s, In s ss -> internal < s -> In s a') /\ (forall s, In s a' -> In s a \/ (In s ss /\ internal < s)) /\
    (forall j, In j new -> exists s, In s ss /\ internal < s /\ In j (drel s)) /\ (forall s, In s a' -> ~ In s a -> incl (drel s) new).
  Proof.
    induction ss as [|s ss IH]; intros a a' new H; cbn [Sine.activate] in H.
    - injection H as <- <-. split; [apply incl_refl|]. split; [intros s []|]. split; auto. split; [intros j []|]. intros s X Y. contradiction.
    - destruct ((internal <? s) && negb (has s a)) eqn:Q.
      + apply andb_true_iff in Q. destruct Q as [Q1 Q2]. apply Nat.ltb_lt in Q1. apply negb_true_iff, has_false in Q2.
        destruct (activate ss (s :: a)) as [a1 n1] eqn:QA. injection H as <- <-. destruct (IH _ _ _ QA) as [A [B [C [D F]]]].
        split; [intros x Hx; apply A; right; auto|]. split; [intros x [<-|Hx] Hi; [apply A; left; auto|auto]|].
        split. { intros x Hx. destruct (C x Hx) as [[<-|X]|[X Y]]; auto; right; split; auto; [left; auto|right; auto]. }
        split. { intros j Hj. apply in_app_or in Hj. destruct Hj as [Hj|Hj]; [exists s; repeat split; auto; left; auto|]. destruct (D j Hj) as [t [X [Y Z]]]. exists t. repeat split; auto. right; auto. }
        intros x Hx Nx j Hj. apply in_or_app. destruct (Nat.eq_dec x s) as [->|N]; auto. right. apply (F x Hx); auto. intros [X|X]; auto.
      + destruct (IH _ _ _ H) as [A [B [C [D F]]]]. split; auto. split.
        { intros x [<-|Hx] Hi; auto. apply andb_false_iff in Q. destruct Q as [Q|Q]; [apply Nat.ltb_ge in Q; lia|]. apply negb_false_iff, has_iff in Q. apply A; auto. }
        split; [intros x Hx; destruct (C x Hx) as [X|[X Y]]; auto; right; split; auto; right; auto|]. split; auto.
        intros j Hj. destruct (D j Hj) as [t [X [Y Z]]]. exists t. repeat split; auto. right; auto.
  Qed.

  Variables (max_depth max_size : Z).
  Hypothesis ND : NoDup seeds.
  Record inv (st : sstate) (L : nat) (cur next : list item) : Prop := {
    in_level : level st = Z.of_nat L;
    in_queue : queue st = map Some cur ++ None :: map Some next;
    in_cur : forall i, In i cur -> R L i;
    in_next : forall i, In i next -> R (S L) i;
    in_sel : forall i, In i (sel st) -> exists k, k <= L /\ (Z.of_nat k <= max_depth)%Z /\ R k i;
    in_nodup : NoDup (sel st);
    in_act : forall s, In s (act st) -> internal < s /\ forall j, In j (drel s) -> In j (sel st) \/ In j cur \/ In j next;
    in_syms : forall i s, In i (sel st) -> In s (symbols i) -> internal < s -> In s (act st);
    in_all : forall i, R L i -> In i (sel st) \/ In i cur;
    in_prev : forall k i, k < L -> R k i -> In i (sel st);
    in_first : L = 0 -> sel st ++ cur = seeds;
    in_size : (Z.of_nat (length (sel st)) <= Z.max 0 (max_size + 1))%Z }.
  Record done (l : list item) : Prop := {
    dn_sound : forall i, In i l -> exists k, (Z.of_nat k <= max_depth)%Z /\ R k i;
    dn_nodup : NoDup l;
    dn_all : (Z.of_nat (length l) <= max_size)%Z -> forall k i, (Z.of_nat k <= max_depth)%Z -> R k i -> In i l;
    dn_first : (0 <= max_depth)%Z -> (Z.of_nat (length seeds) <= max_size + 1)%Z -> incl seeds l;
    dn_size : (Z.of_nat (length l) <= Z.max 0 (max_size + 1))%Z }.

  Lemma R0 i : R 0 i <-> In i seeds.
  Proof. split; [intros H; inversion H; auto|apply trig_seed]. Qed.
  Lemma RS k j : R (S k) j <-> exists i s, R k i /\ In s (symbols i) /\ internal < s /\ In j (drel s).
  Proof.
    split.
    - intros H. inversion H; subst. exists i, s. repeat split; auto. apply drel_pos; auto.
    - intros [i [s [A [B [C D]]]]]. apply (drel_pos j s C) in D. destruct D. eapply trig_step; eauto.
  Qed.

  Lemma inv_start : inv (mkss (map Some seeds ++ [None]) [] [] 0%Z) 0 seeds [].
  Proof.
    constructor; cbn [queue sel act level].
    - reflexivity.
    - reflexivity.
    - intros i Hi. apply R0; auto.
    - intros i [].
    - intros i [].
    - constructor.
    - intros s [].
    - intros i s [].
    - intros i H. right. apply R0; auto.
    - intros; lia.
    - reflexivity.
    - cbn. lia.
  Qed.

  Lemma loop_done : forall fuel st L cur next st', inv st L cur next -> select_loop internal symbols dsyms axioms fuel max_depth max_size st = Some st' -> done (sel st').
  Proof.
    induction fuel as [|fuel IH]; intros st L cur next st' I H; [discriminate|]. cbn [select_loop] in H. pose proof I as II. destruct II as [Lv Q C N S NS A SY AL PV FS SZ].
    assert (IS : forall j : item, NoDup (sel st) -> NoDup (sel st)) by auto.
    rewrite Q in H. destruct cur as [|i cur]; cbn [map List.app] in H.
    - destruct ((max_size <? Z.of_nat (length (sel st))) || (max_depth <? level st))%Z eqn:B.
      + injection H as <-. apply orb_true_iff in B. constructor; auto.
        * intros i Hi. destruct (S i Hi) as [k [_ X]]. eauto.
        * intros SZ' k i Hk HR. destruct B as [B|B]; [apply Z.ltb_lt in B; lia|]. apply Z.ltb_lt in B. apply (PV k i); auto. lia.
        * intros MD MS i Hi. destruct (Nat.eq_dec L 0) as [->|NL].
          -- destruct (AL i); [apply R0; auto|auto|contradiction].
          -- apply (PV 0 i); [lia|]. apply R0; auto.
      + destruct next as [|j next].
        * destruct fuel as [|fuel']; [discriminate|]. cbn [map select_loop queue sel] in H. injection H as <-. cbn [sel].
          assert (CL : forall k i, R k i -> In i (sel st)).
          { induction k as [|k IHk]; intros i Hi.
            - destruct (Nat.eq_dec L 0) as [->|NL]; [destruct (AL i Hi) as [X|[]]; auto|apply (PV 0 i); auto; lia].
            - apply RS in Hi. destruct Hi as [i' [s [X [Y [Z W]]]]]. specialize (IHk i' X). destruct (A s (SY i' s IHk Y Z)) as [_ D]. destruct (D i W) as [E|[[]|[]]]; auto. }
          constructor; auto.
          -- intros i Hi. destruct (S i Hi) as [k [_ X]]. eauto.
          -- intros _ k i _. apply CL.
          -- intros _ _ i Hi. apply (CL 0). apply R0; auto.
        * cbn [map] in H. eapply (IH _ (Datatypes.S L) (j :: next) []); [|exact H]. constructor; cbn [level queue sel act]; auto.
          -- lia.
          -- intros i [].
          -- intros i Hi. destruct (S i Hi) as [k [X Y]]. exists k. split; auto.
          -- intros s Hs. destruct (A s Hs) as [X Y]. split; auto. intros i Hi. destruct (Y i Hi) as [Z|[[]|Z]]; auto.
          -- intros i Hi. apply RS in Hi. destruct Hi as [i' [s [X [Y [Z W]]]]]. destruct (AL i' X) as [IHk|[]]. destruct (A s (SY i' s IHk Y Z)) as [_ D]. destruct (D i W) as [E|[[]|E]]; auto.
          -- intros k i Hk Hi. destruct (Nat.eq_dec k L) as [->|NL]; [destruct (AL i Hi) as [X|[]]; auto|apply (PV k i); auto; lia].
          -- discriminate.
    - destruct ((max_size <? Z.of_nat (length (sel st))) || (max_depth <? level st))%Z eqn:B.
      + injection H as <-. apply orb_true_iff in B. constructor; auto.
        * intros x Hi. destruct (S x Hi) as [k [_ X]]. eauto.
        * intros SZ' k x Hk HR. destruct B as [B|B]; [apply Z.ltb_lt in B; lia|]. apply Z.ltb_lt in B. apply (PV k x); auto. lia.
        * intros MD MS x Hx. destruct (Nat.eq_dec L 0) as [->|NL]; [|apply (PV 0 x); [lia|]; apply R0; auto].
          destruct B as [B|B]; apply Z.ltb_lt in B; [|lia]. specialize (FS eq_refl). rewrite <- FS in MS. rewrite app_length in MS. cbn [length] in MS. lia.
      + apply orb_false_iff in B. destruct B as [B1 B2]. apply Z.ltb_ge in B1, B2.
        assert (RI : R L i) by (apply C; left; auto).
        destruct (mem i (sel st)) eqn:M.
        * apply mem_iff in M. eapply (IH _ L cur next); [|exact H]. constructor; cbn [level queue sel act]; auto.
          -- intros x Hx. apply C. right; auto.
          -- intros s Hs. destruct (A s Hs) as [X Y]. split; auto. intros x Hx. destruct (Y x Hx) as [Z|[[<-|Z]|Z]]; auto.
          -- intros x Hx. destruct (AL x Hx) as [Z|[<-|Z]]; auto.
          -- intros HL. specialize (FS HL). exfalso. rewrite <- FS in ND. apply NoDup_remove_2 in ND. apply ND, in_or_app. auto.
        * assert (NI : ~ In i (sel st)) by (rewrite <- mem_iff; congruence).
          destruct (activate (symbols i) (act st)) as [a new] eqn:QA. destruct (activate_spec _ _ _ _ QA) as [P1 [P2 [P3 [P4 P5]]]].
          eapply (IH _ L cur (next ++ new)); [|exact H]. constructor; cbn [level queue sel act]; auto.
          -- rewrite map_app, <- app_assoc. reflexivity.
          -- intros x Hx. apply C. right; auto.
          -- intros x Hx. apply in_app_or in Hx. destruct Hx as [Hx|Hx]; auto. apply RS. destruct (P4 x Hx) as [s [X [Y Z]]]. exists i, s. auto.
          -- intros x Hx. apply in_app_or in Hx. destruct Hx as [Hx|[<-|[]]]; auto. exists L. split; auto. split; auto. lia.
          -- eapply Permutation_NoDup; [apply Permutation_cons_append|]. constructor; auto.
          -- intros s Hs. destruct (in_dec Nat.eq_dec s (act st)) as [Hin|Hout].
             ++ destruct (A s Hin) as [X Y]. split; auto. intros x Hx. rewrite !in_app_iff. cbn [In]. destruct (Y x Hx) as [Z|[[<-|Z]|Z]]; auto 10.
             ++ destruct (P3 s Hs) as [X|[X Y]]; [contradiction|]. split; auto. intros x Hx. right. right. apply in_or_app. right. apply (P5 s Hs Hout); auto.
          -- intros x s Hx Hs Hi. apply in_app_or in Hx. destruct Hx as [Hx|[<-|[]]]; auto. apply P1. apply (SY x s); auto.
          -- intros x Hx. rewrite in_app_iff. cbn [In]. destruct (AL x Hx) as [Z|[<-|Z]]; auto.
          -- intros k x Hk Hx. apply in_or_app. left. apply (PV k x); auto.
          -- intros HL. rewrite <- app_assoc. cbn [List.app]. auto.
          -- rewrite app_length. cbn [length]. lia.
  Qed.

  (** ** The end of the loop *)
  Definition all_keys : list nat := nodup Nat.eq_dec (flat_map (keys dsyms) axioms).
  Definition pot_of (ks : list nat) (a : list nat) : nat := list_sum (map (fun s => if has s a then 0 else length (drel s)) ks).
  Definition pot (a : list nat) : nat := pot_of all_keys a.
  Lemma drel_nil s : ~ In s all_keys -> drel s = [].
  Proof.
    intros H. destruct (drel s) as [|j l] eqn:Q; auto. exfalso. apply H. unfold all_keys. apply nodup_In, in_flat_map. exists j. apply in_drel. rewrite Q. left; auto.
  Qed.
  Lemma has_cons s t a : has s (t :: a) = Nat.eqb s t || has s a.
  Proof. reflexivity. Qed.
  Lemma pot_other ks s a : ~ In s ks -> pot_of ks (s :: a) = pot_of ks a.
  Proof.
    intros H. unfold pot_of. f_equal. apply map_ext_in. intros t Ht. rewrite has_cons. destruct (Nat.eqb_spec t s); [subst; contradiction|reflexivity].
  Qed.
  Lemma pot_step s a : ~ In s a -> pot (s :: a) + length (drel s) = pot a.
  Proof.
    intros H. unfold pot. destruct (in_dec Nat.eq_dec s all_keys) as [Hin|Hout].
    - assert (NK : NoDup all_keys) by apply NoDup_nodup. revert Hin NK. generalize all_keys as ks. induction ks as [|t ks IH]; intros Hin NK; [destruct Hin|].
      inversion NK as [|x l N1 N2]; subst.
      assert (CO : forall b, pot_of (t :: ks) b = (if has t b then 0 else length (drel t)) + pot_of ks b) by reflexivity. rewrite !CO, has_cons. destruct (Nat.eqb_spec t s) as [->|NE]; cbn [orb].
      + apply has_false in H. rewrite H, (pot_other ks s a N1). lia.
      + destruct Hin as [->|Hin]; [contradiction|]. specialize (IH Hin N2). lia.
    - rewrite (pot_other _ _ _ Hout), (drel_nil _ Hout). cbn. lia.
  Qed.
  Lemma activate_pot : forall ss a a' new, activate ss a = (a', new) -> pot a' + length new = pot a.
  Proof.
    induction ss as [|s ss IH]; intros a a' new H; cbn [Sine.activate] in H; [injection H as <- <-; cbn; lia|].
    destruct ((internal <? s) && negb (has s a)) eqn:Q; [|eauto].
    apply andb_true_iff in Q. destruct Q as [_ Q]. apply negb_true_iff, has_false in Q. destruct (activate ss (s :: a)) as [a1 n1] eqn:QA. injection H as <- <-. specialize (IH _ _ _ QA).
    pose proof (pot_step s a Q). rewrite app_length. lia.
  Qed.

  Lemma loop_total : forall m fuel st cur next, queue st = map Some cur ++ None :: map Some next ->
    2 * (length cur + length next + pot (act st)) + (match cur with [] => 1 | _ => 0 end) <= m -> Datatypes.S m < fuel -> exists st', select_loop internal symbols dsyms axioms fuel max_depth max_size st = Some st'.
  Proof.
    clear ND. induction m as [m IH] using lt_wf_ind. intros fuel st cur next Q B F. destruct fuel as [|fuel]; [lia|]. cbn [select_loop]. rewrite Q. destruct cur as [|i cur]; cbn [map List.app].
    - destruct (_ || _)%Z; [eauto|]. destruct next as [|j next].
      + destruct fuel as [|fuel]; [cbn in B; lia|]. cbn [map select_loop queue]. eauto.
      + cbn [length] in B. eapply (IH (m - 1)); [lia|cbn [queue map]; rewrite <- app_comm_cons; instantiate (2 := j :: next); instantiate (1 := []); reflexivity| |lia]. cbn [act length]. lia.
    - destruct (_ || _)%Z; [eauto|]. cbn [length] in B. destruct (mem i (sel st)).
      + apply (IH (m - 1)) with (cur := cur) (next := next); [lia|reflexivity| |lia]. cbn [act]. destruct cur; lia.
      + destruct (activate (symbols i) (act st)) as [a new] eqn:QA. apply activate_pot in QA. apply (IH (m - 1)) with (cur := cur) (next := next ++ new); [lia| | |lia].
        * cbn [queue]. rewrite map_app, <- app_assoc. reflexivity.
        * cbn [act]. rewrite app_length. destruct cur; lia.
  Qed.
  Lemma select_total : exists N, forall fuel, N <= fuel -> exists l, select_defining internal symbols dsyms axioms fuel max_depth max_size seeds = Some l.
  Proof.
    clear ND. exists (2 * (length seeds + pot []) + 3). intros fuel H. unfold select_defining.
    destruct (loop_total (2 * (length seeds + pot []) + 1) fuel (mkss (map Some seeds ++ [None]) [] [] 0%Z) seeds []) as [st' X]; [reflexivity| |lia|rewrite X; cbn; eauto].
    cbn [act length]. destruct seeds; lia.
  Qed.
End Select.

(** ** Relevancy *)
Section Relevance.
  Variables (codes : item -> list nat) (goal : item -> bool) (axioms : list item).
  Notation K := (linked codes goal axioms).
  Lemma touches_iff fs i : touches codes fs i = true <-> exists f, In f fs /\ In f (codes i).
  Proof. unfold touches. rewrite existsb_exists. split; intros [f [A B]]; exists f; split; auto; apply has_iff; auto. Qed.

  Lemma filter_split {T} (P : T -> bool) l : Permutation (filter P l ++ filter (fun x => negb (P x)) l) l.
  Proof. induction l as [|a l IH]; cbn; [constructor|]. destruct (P a); cbn; [constructor; auto|]. eapply Permutation_trans; [apply Permutation_sym, Permutation_middle|]. constructor; auto. Qed.
  Lemma levels_perm : forall fuel core rest seen ls r, levels codes fuel core rest seen = Some (ls, r) -> Permutation (concat ls ++ r) (core ++ rest).
  Proof.
    induction fuel as [|fuel IH]; intros core rest seen ls r H; (destruct core as [|c core]; cbn [levels] in H; [injection H as <- <-; apply Permutation_refl|]); [discriminate|].
    destruct (levels codes fuel _ _ _) as [[ls' r']|] eqn:Q; [|discriminate]. injection H as <- <-. apply IH in Q. cbn [concat]. rewrite <- app_assoc. apply Permutation_app_head.
    eapply Permutation_trans; [exact Q|]. apply filter_split.
  Qed.
  Lemma levels_total : forall fuel core rest seen, length rest < fuel -> exists ls r, levels codes fuel core rest seen = Some (ls, r).
  Proof.
    induction fuel as [|fuel IH]; intros core rest seen H; [lia|]. destruct core as [|c core]; cbn [levels]; [eauto|].
    set (fs := new_codes codes (c :: core) seen).
    pose proof (Permutation_length (filter_split (touches codes fs) rest)) as PL. rewrite app_length in PL.
    destruct (filter (touches codes fs) rest) as [|d core'] eqn:QF.
    - assert (X : forall n s, exists ls r, levels codes n [] (filter (fun i => negb (touches codes fs i)) rest) s = Some (ls, r)) by (intros [|n] s; cbn; eauto).
      destruct (X fuel (fs ++ seen)) as [ls [r Y]]. rewrite Y. eauto.
    - cbn [length] in PL. destruct (IH (d :: core') (filter (fun i => negb (touches codes fs i)) rest) (fs ++ seen)) as [ls [r Y]]; [lia|]. rewrite Y. eauto.
  Qed.

  Lemma levels_exact : forall fuel core rest seen ls r d prev, levels codes fuel core rest seen = Some (ls, r) ->
    (forall i, In i core -> K d i) -> (forall k i, k < d -> K k i -> In i prev) -> (forall i, K d i -> In i prev \/ In i core) ->
    (forall i, In i prev -> exists k, k < d /\ K k i) ->
    (forall i f, In i prev -> In f (codes i) -> In f seen) -> (forall f, In f seen -> exists i, In i prev /\ In f (codes i)) ->
    (forall i, In i axioms -> In i prev \/ In i core \/ In i rest) -> (forall i, In i core \/ In i rest -> In i axioms) -> (forall i f, In i rest -> In f (codes i) -> ~ In f seen) ->
    forall n i, (In i (concat (firstn n ls)) -> exists k, k < d + n /\ K k i) /\ (forall k, k < d + n -> K k i -> In i prev \/ In i (concat (firstn n ls))).
  Proof.
    induction fuel as [|fuel IH]; intros core rest seen ls r d prev H C PV AL PR SN SN' AX AX' RS n i.
    1: destruct core as [|c core]; [|discriminate H]; cbn [levels] in H.
    2: destruct core as [|c core]; cbn [levels] in H.
    1,2: injection H as <- <-; rewrite firstn_nil; cbn [concat]; split; [intros []|]; intros k0 Hk0 Hi0; left;
      assert (CL : forall k j, K k j -> In j prev) by
       (intros k; induction k as [|k IHk]; intros j Hj;
        [destruct (Nat.eq_dec d 0) as [->|ND]; [destruct (AL j Hj) as [X|[]]; auto|apply (PV 0 j); auto; lia]|];
        inversion Hj as [|k' i' f j' X Y Z W]; subst; specialize (IHk i' X); destruct (AX j Z) as [V|[[]|V]]; auto;
        exfalso; apply (RS j f V W), (SN i' f IHk Y)); eauto.
    destruct (levels codes fuel _ _ _) as [[ls' r']|] eqn:Q; [|discriminate]. injection H as <- <-. set (fs := new_codes codes (c :: core) seen) in *.
    assert (FS : forall f, In f fs <-> In f (flat_map codes (c :: core)) /\ ~ In f seen).
    { intros f. unfold fs, new_codes. rewrite filter_In, negb_true_iff, has_false. tauto. }
    assert (ALL : forall f j, In j (c :: core) -> In f (codes j) -> In f (fs ++ seen)).
    { intros f j Hj Hf. apply in_or_app. destruct (in_dec Nat.eq_dec f seen) as [X|X]; auto. left. apply FS. split; auto. apply in_flat_map; eauto. }
    specialize (IH _ _ _ _ _ (S d) (prev ++ c :: core) Q).
    assert (IH' := fun h1 h2 h3 h4 h5 h6 h7 h8 h9 => IH h1 h2 h3 h4 h5 h6 h7 h8 h9 (n - 1) i). clear IH.
    destruct IH' as [I1 I2].
    - intros j Hj. apply filter_In in Hj. destruct Hj as [A B]. apply touches_iff in B. destruct B as [f [B1 B2]]. apply FS in B1. destruct B1 as [B1 _].
      apply in_flat_map in B1. destruct B1 as [c' [D1 D2]]. apply (link_step _ _ _ d c' f j); auto.
    - intros k j Hk Hj. apply in_or_app. destruct (Nat.eq_dec k d) as [->|N]; [apply AL; auto|]. left. apply (PV k j); auto. lia.
    - intros j Hj. inversion Hj as [|k' i' f j' X Y Z W]; subst. rewrite in_app_iff. destruct (AX j Z) as [V|[V|V]]; auto. right. apply filter_In. split; auto. apply touches_iff. exists f. split; auto.
      apply FS. destruct (AL i' X) as [U|U]; [exfalso; apply (RS j f V W), (SN i' f U Y)|]. split; [apply in_flat_map; eauto|apply (RS j f V W)].
    - intros j Hj. apply in_app_or in Hj. destruct Hj as [Hj|Hj]; [destruct (PR j Hj) as [k [X Y]]; exists k; split; auto|]. exists d. split; auto.
    - intros j f Hj Hf. apply in_app_or in Hj. destruct Hj as [Hj|Hj]; [apply in_or_app; right; eauto|eauto].
    - intros f Hf. apply in_app_or in Hf. destruct Hf as [Hf|Hf].
      + apply FS in Hf. destruct Hf as [Hf _]. apply in_flat_map in Hf. destruct Hf as [j [A B]]. exists j. split; auto. apply in_or_app; auto.
      + destruct (SN' f Hf) as [j [A B]]. exists j. split; auto. apply in_or_app; auto.
    - intros j Hj. rewrite in_app_iff, !filter_In. destruct (AX j Hj) as [V|[V|V]]; auto. destruct (touches codes fs j); auto.
    - intros j Hj. rewrite !filter_In in Hj. apply AX'. tauto.
    - intros j f Hj Hf X. apply filter_In in Hj. destruct Hj as [A B]. apply negb_true_iff in B. apply in_app_or in X. destruct X as [X|X]; [|apply (RS j f A Hf X)].
      assert (Y : touches codes fs j = true) by (apply touches_iff; eauto). congruence.
    - destruct n as [|n].
      + cbn [firstn concat]. split; [intros []|]. intros k Hk Hi. left. apply (PV k i); auto. lia.
      + cbn [firstn concat]. replace (Datatypes.S n - 1) with n in * by lia. split.
        * intros X. apply (in_app_or (c :: core)) in X. destruct X as [X|X]; [exists d; split; [lia|auto]|]. destruct (I1 X) as [k [Y Z]]. exists k. split; auto. lia.
        * intros k Hk Hi. destruct (I2 k ltac:(lia) Hi) as [X|X]; [apply in_app_or in X; destruct X as [X|X]; auto|]; right; apply (in_or_app (c :: core)); auto.
  Qed.
End Relevance.

(** ** The symbols an axiom is filed under *)
From Coq Require Import Sorted.
Section DSyms.
  Variables (gen : nat -> Z).
  Notation srt := (StronglySorted (fun a b => (gen a <= gen b)%Z)).
  Lemma take_while_in P : (forall a b, (gen a <= gen b)%Z -> P b = true -> P a = true) -> forall l, srt l -> forall x, In x (take_while P l) <-> In x l /\ P x = true.
  Proof.
    intros DC l H x. induction H as [|a l HS IH HF]; cbn; [tauto|]. rewrite Forall_forall in HF. destruct (P a) eqn:Q; cbn; [rewrite IH; intuition congruence|].
    split; [intros []|]. intros [[->|X] Y]; [congruence|]. rewrite (DC a x (HF x X) Y) in Q. discriminate.
  Qed.
  Lemma filter_none {T} (P : T -> bool) l : (forall x, In x l -> P x = false) -> filter P l = [].
  Proof. induction l as [|a l IH]; intros H; cbn; auto. rewrite (H a (or_introl eq_refl)). apply IH. intros x Hx. apply H. right; auto. Qed.
  Lemma rank : forall l, srt l -> forall g t, g < length l -> ((gen t <= gen (nth g l 0%nat))%Z <-> length (filter (fun u => (gen u <? gen t)%Z) l) <= g).
  Proof.
    intros l H. induction H as [|a l HS IH HF]; intros g t Hg; cbn [length] in Hg; [lia|]. rewrite Forall_forall in HF. cbn [filter].
    destruct (Z.ltb_spec (gen a) (gen t)) as [Q|Q].
    - cbn [length]. destruct g as [|g]; cbn [nth]; [lia|]. rewrite IH; lia.
    - rewrite (filter_none _ l); [|intros x Hx; apply Z.ltb_ge; specialize (HF x Hx); lia]. cbn [length]. split; [lia|intros _]. destruct g as [|g]; cbn [nth]; [lia|]. assert (LG : g < length l) by lia. specialize (HF _ (nth_In l 0 LG)). lia.
  Qed.
  Lemma filter_length_perm {T} (P : T -> bool) l l' : Permutation l l' -> length (filter P l) = length (filter P l').
  Proof. induction 1 as [|a l l' H IH|a b l|l l' l'' H1 IH1 H2 IH2]; cbn; auto; [destruct (P a); cbn; auto|destruct (P a), (P b); cbn; auto|congruence]. Qed.
  Lemma filter_length_le {T} (P : T -> bool) l : length (filter P l) <= length l.
  Proof. induction l as [|a l IH]; cbn; auto. destruct (P a); cbn; lia. Qed.
  Lemma filter_length_lt {T} (P : T -> bool) l x : In x l -> P x = false -> length (filter P l) < length l.
  Proof.
    induction l as [|a l IH]; [intros []|]. intros [->|H] Q; cbn.
    - rewrite Q. pose proof (filter_length_le P l). lia.
    - specialize (IH H Q). destruct (P a); cbn; lia.
  Qed.
  Lemma d_symbols_spec internal ben generosity sort symbols : (forall l, Permutation (sort l) l /\ srt (sort l)) ->
    forall t, In t (d_symbols internal gen ben generosity sort symbols) <->
      In t symbols /\ internal <= t /\ (forall s, In s symbols -> internal <= s -> (forall u, In u symbols -> internal <= u -> (gen s <= gen u)%Z) -> (gen t <= ben (gen s))%Z) /\
      length (filter (fun u => (internal <=? u) && (gen u <? gen t)%Z) symbols) <= generosity.
  Proof.
    intros HS t. unfold d_symbols. set (F := filter (fun i => internal <=? i) symbols). destruct (HS F) as [PM ST].
    assert (IF : forall x, In x F <-> In x symbols /\ internal <= x) by (intros x; unfold F; rewrite filter_In, Nat.leb_le; tauto).
    assert (CT : length (filter (fun u => (gen u <? gen t)%Z) (sort F)) = length (filter (fun u => (internal <=? u) && (gen u <? gen t)%Z) symbols)).
    { rewrite (filter_length_perm _ _ _ PM). unfold F. clear. induction symbols as [|a l IH]; cbn [filter]; auto. destruct (internal <=? a); cbn [filter andb]; auto. destruct (gen a <? gen t)%Z; cbn; auto. }
    assert (IS : forall x, In x (sort F) <-> In x F) by (intros x; split; apply Permutation_in; auto; apply Permutation_sym; auto).
    rewrite <- CT. destruct (sort F) as [|s l] eqn:QS.
    { split; [intros []|]. intros [A [B _]]. apply (IS t), IF; auto. }
    set (g := if length (s :: l) <=? generosity then length (s :: l) - 1 else generosity).
    assert (Hg : g < length (s :: l)) by (unfold g; destruct (Nat.leb_spec (length (s :: l)) generosity); cbn [length] in *; lia).
    rewrite take_while_in; [|intros a b H1 H2; apply Z.leb_le; apply Z.leb_le in H2; lia|auto].
    rewrite IS, IF, Z.leb_le.
    assert (LS : forall u, In u (s :: l) -> (gen s <= gen u)%Z).
    { inversion ST as [|x y HS1 HF]; subst. rewrite Forall_forall in HF. intros u [<-|Hu]; [lia|auto]. }
    assert (MIN : forall s', In s' symbols -> internal <= s' -> (forall u, In u symbols -> internal <= u -> (gen s' <= gen u)%Z) -> gen s' = gen s).
    { intros s' A B C. assert (D : In s F) by (apply IS; left; auto). apply IF in D. specialize (C s (proj1 D) (proj2 D)). specialize (LS s'). rewrite IS, IF in LS. specialize (LS (conj A B)). lia. }
    set (aux := gen (nth g (s :: l) 0)). set (limit := ben (gen s)).
    assert (MM : (gen t <= (if (aux <? limit) then aux else limit))%Z <-> (gen t <= aux)%Z /\ (gen t <= limit)%Z) by (destruct (Z.ltb_spec aux limit); lia).
    rewrite MM. unfold aux. rewrite (rank (s :: l) ST g t Hg).
    assert (GG : In t (s :: l) -> (length (filter (fun u => (gen u <? gen t)%Z) (s :: l)) <= g <-> length (filter (fun u => (gen u <? gen t)%Z) (s :: l)) <= generosity)).
    { intros Ht. pose proof (filter_length_lt (fun u => (gen u <? gen t)%Z) _ _ Ht (Z.ltb_irrefl _)). unfold g. destruct (Nat.leb_spec (length (s :: l)) generosity); lia. }
    rewrite IS, IF in GG. unfold limit. split.
    - intros [[A B] [C D]]. repeat split; auto; [|apply GG; auto]. intros s' X Y Z. rewrite (MIN s' X Y Z). auto.
    - intros [A [B [C D]]]. repeat split; auto; [apply GG; auto|]. assert (SF : In s F) by (apply IS; left; auto). apply IF in SF. apply C; try tauto. intros u X Y. apply LS, IS, IF; auto.
  Qed.
End DSyms.
