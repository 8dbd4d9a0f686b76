(** * Proofs about the symbol table *)
From Coq Require Import FinFun String Ascii List ZArith Lia Bool Arith DecimalNat.
From Verif Require Import Sig.
Import ListNotations.
Local Open Scope nat_scope.
Local Open Scope list_scope.

(** ** Strings *)
Notation la := list_ascii_of_string.
Lemma la_app : forall s t, la (s ++ t)%string = la s ++ la t.
Proof. induction s as [|c s IH]; intros t; cbn; [reflexivity|]. now rewrite IH. Qed.
Lemma la_inj : forall s t, la s = la t -> s = t.
Proof. intros s t H. rewrite <- (string_of_list_ascii_of_string s), <- (string_of_list_ascii_of_string t). now rewrite H. Qed.
Lemma digits_inj : forall u v, digits u = digits v -> u = v.
Proof. induction u; destruct v; cbn; intro H; try discriminate; try reflexivity; injection H as H; f_equal; auto. Qed.
Lemma print_nat_inj : forall n m, print_nat n = print_nat m -> n = m.
Proof. intros n m H. apply digits_inj in H. rewrite <- (DecimalNat.Unsigned.of_to n), <- (DecimalNat.Unsigned.of_to m). now rewrite H. Qed.
Definition is_digit (c : ascii) : Prop := In c ["0"; "1"; "2"; "3"; "4"; "5"; "6"; "7"; "8"; "9"]%char.
Lemma digits_digit : forall u c, In c (la (digits u)) -> is_digit c.
Proof. induction u; cbn; intros c H; try contradiction; (destruct H as [<- | H]; [unfold is_digit; cbn; tauto|apply IHu; exact H]). Qed.
Lemma print_nat_digit : forall n c, In c (la (print_nat n)) -> is_digit c.
Proof. intros n c; apply digits_digit. Qed.
Lemma print_Z_chars : forall z c, In c (la (print_Z z)) -> c = "-"%char \/ is_digit c.
Proof. intros z c; unfold print_Z. destruct (z <? 0)%Z; cbn; intro H; [destruct H as [H | H]; [now left|]|]; right; eapply print_nat_digit; eauto. Qed.
Lemma print_Z_inj : forall a b, print_Z a = print_Z b -> a = b.
Proof.
  assert (D : forall n s, print_nat n <> String "-" s).
  { intros n s H. assert (I : is_digit "-"%char) by (apply (print_nat_digit n); rewrite H; now left). unfold is_digit in I; cbn in I; intuition discriminate. }
  intros a b; unfold print_Z. destruct (a <? 0)%Z eqn:A, (b <? 0)%Z eqn:B; intro H.
  - injection H as H. apply print_nat_inj in H. lia.
  - symmetry in H. now apply D in H.
  - now apply D in H.
  - apply print_nat_inj in H. lia.
Qed.
Lemma split_at : forall (x : ascii) l1 l2 k1 k2, l1 ++ x :: l2 = k1 ++ x :: k2 -> ~ In x l2 -> ~ In x k2 -> l1 = k1 /\ l2 = k2.
Proof.
  induction l1 as [|a l1 IH]; intros l2 [|b k1] k2 H N1 N2; cbn in H.
  - injection H as H. now subst.
  - injection H as H0 H. subst. exfalso. apply N1. apply in_or_app. right; now left.
  - injection H as H0 H. subst. exfalso. apply N2. apply in_or_app. right; now left.
  - injection H as H0 H. subst. apply IH in H; auto. destruct H; now subst.
Qed.
Lemma fix_name_inj : forall n a m b, fix_name n a = fix_name m b -> n = m /\ a = b.
Proof.
  intros n a m b H. apply (f_equal la) in H. unfold fix_name in H. rewrite !la_app in H. cbn in H.
  replace (la n ++ "_"%char :: "A"%char :: "R"%char :: "I"%char :: "T"%char :: "Y"%char :: "F"%char :: "I"%char :: "X"%char :: la (print_Z a) ++ [" "%char])
    with ((la n ++ ["_"; "A"; "R"; "I"; "T"; "Y"; "F"; "I"]%char) ++ "X"%char :: la (print_Z a) ++ [" "%char]) in H by (rewrite <- List.app_assoc; reflexivity).
  replace (la m ++ "_"%char :: "A"%char :: "R"%char :: "I"%char :: "T"%char :: "Y"%char :: "F"%char :: "I"%char :: "X"%char :: la (print_Z b) ++ [" "%char])
    with ((la m ++ ["_"; "A"; "R"; "I"; "T"; "Y"; "F"; "I"]%char) ++ "X"%char :: la (print_Z b) ++ [" "%char]) in H by (rewrite <- List.app_assoc; reflexivity).
  assert (N : forall z, ~ In "X"%char (la (print_Z z) ++ [" "%char])).
  { intros z I. apply in_app_or in I. destruct I as [I | [I | []]]; [|discriminate]. apply print_Z_chars in I. unfold is_digit in I; cbn in I. intuition discriminate. }
  apply split_at in H; [|apply N|apply N]. destruct H as [H1 H2].
  apply app_inv_tail in H1. apply app_inv_tail in H2. split; [now apply la_inj|]. apply print_Z_inj. now apply la_inj.
Qed.
Lemma last_char_app : forall s t, t <> EmptyString -> last_char (s ++ t)%string = last_char t.
Proof.
  induction s as [|c s IH]; intros t T; cbn [append]; [reflexivity|]. rewrite <- (IH t T). cbn [last_char].
  destruct (s ++ t)%string eqn:E; [|reflexivity]. destruct s; [subst; now cbn in T|discriminate].
Qed.
Lemma last_char_fix : forall n a, last_char (fix_name n a) = Some " "%char.
Proof.
  intros n a. unfold fix_name. rewrite last_char_app by (cbn; discriminate). rewrite last_char_app by (destruct (print_Z a); discriminate).
  rewrite last_char_app by discriminate. reflexivity.
Qed.
Lemma fix_unquoted : forall n a, quoted n = false -> quoted (fix_name n a) = false.
Proof. intros [|c n] a H; [reflexivity|exact H]. Qed.
Lemma raw_unquoted : forall n, quoted n = false -> raw n = n.
Proof. intros [|c n] H; [reflexivity|]. cbn in *. now rewrite H. Qed.

Lemma drop_last_snoc : forall s c, drop_last (s ++ String c EmptyString) = s.
Proof. induction s as [|d s IH]; intros c; [reflexivity|]. cbn [append drop_last]. rewrite IH. destruct s; reflexivity. Qed.
Lemma not_quoted : forall n, (forall n', n <> String "'" n') -> quoted n = false.
Proof. intros [|c n] H; [reflexivity|]. cbn. destruct (Ascii.eqb_spec c quote); [|reflexivity]. subst. exfalso. now apply (H n). Qed.
Lemma raw_written : forall q n, quoted n = false -> raw (written q n) = n.
Proof. intros [|] n H; [|now apply raw_unquoted]. cbn. apply drop_last_snoc. Qed.
Lemma quoted_written : forall q n, quoted n = false -> quoted (written q n) = q.
Proof. intros [|] n H; [reflexivity|exact H]. Qed.
Definition plain_raw (name : string) : Prop := quoted (raw name) = false /\ last_char (raw name) <> Some " "%char.
Lemma plain_is_raw : forall n, plain n -> plain_raw n.
Proof. intros n (q & m & -> & A & B). apply not_quoted in A. unfold plain_raw. now rewrite raw_written. Qed.
Definition one_arity_raw (l : list occurrence) : Prop :=
  forall n a m b, In (n, a) l -> In (m, b) l -> quoted n = true -> raw m = raw n -> b = a.
Lemma one_arity_is_raw : forall l, Forall (fun o => plain (fst o)) l -> one_arity l -> one_arity_raw l.
Proof.
  intros l P O n a m b A B Q R. rewrite Forall_forall in P. destruct (P _ A) as (q & n' & E & X & _). destruct (P _ B) as (r & m' & F & Y & _). cbn in E, F.
  apply not_quoted in X, Y. subst n m. rewrite quoted_written in Q by auto. subst q. rewrite !raw_written in R by auto. subst m'. symmetry. eapply O; eauto.
Qed.

Definition one_arityb (l : list occurrence) : bool :=
  forallb (fun x => negb (quoted (fst x)) || forallb (fun y => negb (String.eqb (raw (fst x)) (fst y) || String.eqb (raw (fst x)) (raw (fst y))) || (snd x =? snd y)%Z) l) l.
Lemma one_arityb_ok : forall l, one_arityb l = true -> one_arity l.
Proof.
  intros l H n q a b A B. unfold one_arityb in H. rewrite forallb_forall in H. specialize (H _ A). cbn [fst snd] in H.
  rewrite (eq_refl : quoted (written true n) = true) in H. cbn [negb orb] in H. rewrite forallb_forall in H. specialize (H _ B). cbn [fst snd] in H.
  assert (R : raw (written true n) = n) by (cbn; apply drop_last_snoc). rewrite R in H.
  assert (X : String.eqb n (written q n) || String.eqb n (raw (written q n)) = true).
  { destruct q; [rewrite R, String.eqb_refl; apply orb_true_r|cbn; now rewrite String.eqb_refl]. }
  rewrite X in H. cbn in H. now apply Z.eqb_eq.
Qed.

(** ** The index *)
Lemma lookup_store : forall k k' c l, lookup k (store k' c l) = match lookup k l with Some x => Some x | None => if String.eqb k k' then Some c else None end.
Proof.
  intros k k' c l. unfold store. destruct (lookup k' l) eqn:E.
  - destruct (lookup k l) eqn:F; [reflexivity|]. destruct (String.eqb_spec k k'); [|reflexivity]. congruence.
  - cbn. destruct (String.eqb_spec k k').
    + subst. now rewrite E.
    + now destruct (lookup k l).
Qed.
Lemma lookup_In : forall k c l, lookup k l = Some c -> In k (map fst l).
Proof. intros k c l; induction l as [|[k' c'] l IH]; cbn; [discriminate|]. destruct (String.eqb_spec k k'); [subst; auto|auto]. Qed.
Lemma lookup_None : forall k l, lookup k l = None <-> ~ In k (map fst l).
Proof.
  intros k l; induction l as [|[k' c'] l IH]; cbn; [tauto|]. destruct (String.eqb_spec k k').
  - subst. split; [discriminate|tauto].
  - rewrite IH. split; [intros A [B | B]; congruence|tauto].
Qed.
Lemma delete_keys : forall k l x, In x (map fst (delete k l)) -> In x (map fst l).
Proof. intros k l x; induction l as [|[k' c'] l IH]; cbn; [tauto|]. destruct (String.eqb k k'); cbn; intuition. Qed.
Lemma delete_nodup : forall k l, NoDup (map fst l) -> NoDup (map fst (delete k l)).
Proof.
  intros k l; induction l as [|[k' c'] l IH]; cbn; intro N; [constructor|]. inversion N; subst. destruct (String.eqb k k'); cbn; auto.
  constructor; auto. intro I. apply delete_keys in I. auto.
Qed.
Lemma lookup_delete : forall k k' l, NoDup (map fst l) -> lookup k (delete k' l) = if String.eqb k k' then None else lookup k l.
Proof.
  intros k k' l; induction l as [|[k2 c2] l IH]; cbn; intro N; [now destruct (String.eqb k k')|]. inversion N; subst.
  destruct (String.eqb_spec k' k2).
  - subst. destruct (String.eqb_spec k k2); [|reflexivity]. subst. now apply lookup_None.
  - cbn. rewrite IH by auto. destruct (String.eqb_spec k k2); [|reflexivity]. subst. destruct (String.eqb_spec k2 k'); congruence.
Qed.
Lemma store_nodup : forall k c l, NoDup (map fst l) -> NoDup (map fst (store k c l)).
Proof. intros k c l N. unfold store. destruct (lookup k l) eqn:E; [auto|]. cbn. constructor; [now apply lookup_None|auto]. Qed.
Lemma assign_keys : forall k c l, map fst (assign k c l) = map fst l.
Proof. intros k c l; induction l as [|[k' c'] l IH]; cbn; [reflexivity|]. destruct (String.eqb k k'); cbn; [reflexivity|]. now rewrite IH. Qed.
Lemma lookup_assign : forall k k' c l, lookup k (assign k' c l) = if String.eqb k k' then (match lookup k l with Some _ => Some c | None => None end) else lookup k l.
Proof.
  intros k k' c l; induction l as [|[k2 c2] l IH]; cbn; [now destruct (String.eqb k k')|].
  destruct (String.eqb_spec k' k2); cbn.
  - subst. destruct (String.eqb_spec k k2); reflexivity.
  - rewrite IH. destruct (String.eqb_spec k k2); [|reflexivity]. subst. destruct (String.eqb_spec k2 k'); congruence.
Qed.

(** ** Insertion: what it does to the table *)
Lemma set_nth_length : forall {A} (f : A -> A) l i, length (set_nth i f l) = length l.
Proof. induction l as [|a l IH]; intros [|i]; cbn; auto. Qed.
Lemma set_nth_nth : forall {A} (f : A -> A) l i j, nth_error (set_nth i f l) j = if Nat.eqb i j then option_map f (nth_error l j) else nth_error l j.
Proof.
  induction l as [|a l IH]; intros [|i] [|j]; cbn; try reflexivity.
  - now destruct (Nat.eqb i j).
  - apply IH.
Qed.
(** cells agree up to FPSpecial *)
Definition same (f g : fcell) : Prop := iname f = iname g /\ ipname f = ipname g /\ iarity f = iarity g.
Definition grows (s s' : sig) : Prop :=
  (forall k c, lookup k (findex s) = Some c -> lookup k (findex s') = Some c) /\
  (forall i f, nth_error (finfo s) i = Some f -> exists g, nth_error (finfo s') i = Some g /\ same f g).
Lemma same_refl : forall f, same f f. Proof. now unfold same. Qed.
Lemma same_trans : forall f g h, same f g -> same g h -> same f h.
Proof. intros f g h (A & B & C) (A' & B' & C'). split; [congruence|]. split; congruence. Qed.
Lemma grows_refl : forall s, grows s s.
Proof. intro s; split; [auto|]. intros i f H. exists f. split; [auto|apply same_refl]. Qed.
Lemma grows_trans : forall a b c, grows a b -> grows b c -> grows a c.
Proof.
  intros a b c [A1 A2] [B1 B2]. split; [auto|]. intros i f H. destruct (A2 i f H) as (g & G & SG). destruct (B2 i g G) as (h & Hh & SH).
  exists h. split; [auto|]. eapply same_trans; eauto.
Qed.
Lemma grows_special : forall s c, grows s (set_special s c).
Proof.
  intros s c. split; [auto|]. intros i f H. unfold set_special; cbn. rewrite set_nth_nth, H. destruct (Nat.eqb (c - 1) i); cbn.
  - eexists; split; [reflexivity|]. now unfold same.
  - exists f. split; [auto|apply same_refl].
Qed.
Definition new_cell (s : sig) (k p : string) (a : Z) (sp : bool) : sig :=
  {| finfo := finfo s ++ [{| iname := k; ipname := p; iarity := a; ispecial := sp |}]; fsize := grow s; findex := store k (S (fcount s)) (findex s) |}.
Lemma grows_new : forall s k p a sp, grows s (new_cell s k p a sp).
Proof.
  intros s k p a sp. split; cbn.
  - intros k' c H. now rewrite lookup_store, H.
  - intros i f H. exists f. split; [|apply same_refl]. rewrite nth_error_app1; auto. apply nth_error_Some. congruence.
Qed.
Lemma grows_arity : forall s s' c f, grows s s' -> cell s c = Some f -> arity_of s' c = arity_of s c.
Proof.
  intros s s' [|c] f [_ G] H; [discriminate|]. unfold arity_of. cbn in *. rewrite H. destruct (G c f H) as (g & G1 & (_ & _ & A)).
  now rewrite G1.
Qed.

(** the shape of an insertion *)
Inductive inserted (s : sig) (name : string) (a : Z) (sp : bool) : sig -> nat -> Prop :=
| ins_base : forall c, sig_find s (raw name) = S c -> arity_of s (S c) = a -> inserted s name a sp (if sp then set_special s (S c) else s) (S c)
| ins_fix : forall c c', sig_find s (raw name) = S c -> arity_of s (S c) <> a -> sig_find s (fix_name name a) = S c' ->
    inserted s name a sp (if sp then set_special s (S c') else s) (S c')
| ins_new : sig_find s (raw name) = 0 -> inserted s name a sp (new_cell s (raw name) name a sp) (S (fcount s))
| ins_newfix : forall c, sig_find s (raw name) = S c -> arity_of s (S c) <> a -> sig_find s (fix_name name a) = 0 ->
    inserted s name a sp (new_cell s (fix_name name a) (raw name) a sp) (S (fcount s)).
Lemma insert_inv : forall s name a sp s' c, sig_insert s name a sp = (s', c) -> inserted s name a sp s' c.
Proof.
  intros s name a sp s' c. unfold sig_insert. destruct (sig_find s (raw name)) as [|p] eqn:P; cbn [negb andb Nat.eqb].
  - intro H; injection H as <- <-. now apply ins_new.
  - destruct (arity_of s (S p) =? a)%Z eqn:A; cbn [negb andb Nat.eqb].
    + intro H; injection H as <- <-. apply Z.eqb_eq in A. now apply ins_base.
    + apply Z.eqb_neq in A. destruct (sig_find s (fix_name name a)) as [|q] eqn:Q; cbn [Nat.eqb]; intro H; injection H as <- <-.
      * eapply ins_newfix; eauto.
      * eapply ins_fix; eauto.
Qed.
Lemma insert_grows : forall s name a sp s' c, sig_insert s name a sp = (s', c) -> grows s s'.
Proof.
  intros s name a sp s' c H. apply insert_inv in H. destruct H; try (destruct sp; [apply grows_special|apply grows_refl]); apply grows_new.
Qed.
Lemma inserts_grows : forall l s s' cs, inserts s l = (s', cs) -> grows s s'.
Proof.
  induction l as [|[[n a] sp] l IH]; intros s s' cs H; cbn in H; [injection H as <- <-; apply grows_refl|].
  destruct (sig_insert s n a sp) as [s1 c] eqn:E. destruct (inserts s1 l) as [s2 cs'] eqn:F. injection H as <- <-.
  apply insert_grows in E. apply IH in F. eapply grows_trans; eauto.
Qed.

(** ** The invariant for plain names *)
Definition base_ok (s : sig) (hist : list occurrence) : Prop :=
  forall k c, lookup k (findex s) = Some c -> last_char k <> Some " "%char -> exists m, In (m, arity_of s c) hist /\ raw m = k.
Definition fix_ok (s : sig) : Prop :=
  forall k c, lookup k (findex s) = Some c -> last_char k = Some " "%char -> exists r, k = fix_name r (arity_of s c) /\ quoted r = false.
Definition table (s : sig) : Prop :=
  (forall k c, lookup k (findex s) = Some c -> exists i f, c = S i /\ nth_error (finfo s) i = Some f /\ iname f = k) /\
  (forall i f, nth_error (finfo s) i = Some f -> lookup (iname f) (findex s) = Some (S i)) /\
  NoDup (map fst (findex s)).
Definition inv (s : sig) (hist : list occurrence) : Prop := table s /\ base_ok s hist /\ fix_ok s.
(** what is known of an occurrence *)
Definition known (s : sig) (n : string) (a : Z) (c : nat) : Prop :=
  arity_of s c = a /\
  (lookup (raw n) (findex s) = Some c \/
   exists c', lookup (raw n) (findex s) = Some c' /\ arity_of s c' <> a /\ lookup (fix_name (raw n) a) (findex s) = Some c).

Lemma table_cell : forall s k c, table s -> lookup k (findex s) = Some c -> exists f, cell s c = Some f /\ iname f = k.
Proof. intros s k c (T & _) H. destruct (T k c H) as (i & f & -> & N & E). exists f. now cbn. Qed.
Lemma table_arity : forall s s' k c, table s -> grows s s' -> lookup k (findex s) = Some c -> arity_of s' c = arity_of s c.
Proof. intros s s' k c T G H. destruct (table_cell s k c T H) as (f & F & _). eapply grows_arity; eauto. Qed.
Lemma known_grows : forall s s' n a c, table s -> grows s s' -> known s n a c -> known s' n a c.
Proof.
  intros s s' n a c T G (A & K). assert (G1 := proj1 G). destruct K as [K | (c' & K1 & K2 & K3)].
  - split; [rewrite (table_arity s s' _ c T G K); auto|]. left; auto.
  - split; [rewrite (table_arity s s' _ c T G K3); auto|]. right. exists c'. split; [auto|]. split; [|auto].
    now rewrite (table_arity s s' _ c' T G K1).
Qed.
Lemma find_lookup : forall s k, quoted k = false -> sig_find s k = match lookup k (findex s) with Some c => c | None => 0 end.
Proof. intros s k Q. unfold sig_find. now rewrite raw_unquoted. Qed.
Lemma find_S : forall s k c, quoted k = false -> sig_find s k = S c -> lookup k (findex s) = Some (S c).
Proof. intros s k c Q H. rewrite find_lookup in H by auto. destruct (lookup k (findex s)); [congruence|discriminate]. Qed.
Lemma find_0 : forall s k, table s -> quoted k = false -> sig_find s k = 0 -> lookup k (findex s) = None.
Proof.
  intros s k T Q H. rewrite find_lookup in H by auto. destruct (lookup k (findex s)) eqn:E; [|reflexivity].
  subst. destruct (proj1 T k 0 E) as (i & f & A & _). discriminate.
Qed.
Lemma table_special : forall s c, table s -> table (set_special s c).
Proof.
  intros s c (T1 & T2 & T3). repeat split; cbn.
  - intros k c' H. destruct (T1 k c' H) as (i & f & A & N & E). exists i. rewrite set_nth_nth, N.
    destruct (Nat.eqb (c - 1) i); cbn; eexists; repeat split; eauto.
  - intros i f H. rewrite set_nth_nth in H. destruct (nth_error (finfo s) i) as [g|] eqn:N; [|destruct (Nat.eqb (c - 1) i); discriminate].
    specialize (T2 i g N). destruct (Nat.eqb (c - 1) i); cbn in H; injection H as <-; auto.
  - auto.
Qed.
Lemma arity_special : forall s c x, arity_of (set_special s c) x = arity_of s x.
Proof.
  intros s c [|x]; [reflexivity|]. unfold arity_of, set_special; cbn. rewrite set_nth_nth. destruct (Nat.eqb (c - 1) x); [|reflexivity].
  now destruct (nth_error (finfo s) x).
Qed.
Lemma inv_special : forall s c h, inv s h -> inv (set_special s c) h.
Proof.
  intros s c h (T & B & F). split; [now apply table_special|]. split.
  - intros k x H L. rewrite arity_special. apply B; auto.
  - intros k x H L. rewrite arity_special. apply F; auto.
Qed.
Lemma table_new : forall s k p a sp, table s -> lookup k (findex s) = None -> table (new_cell s k p a sp).
Proof.
  intros s k p a sp (T1 & T2 & T3) L. repeat split; cbn.
  - intros k' c H. rewrite lookup_store in H. destruct (lookup k' (findex s)) eqn:E.
    + injection H as ->. destruct (T1 k' c E) as (i & f & A & N & I). exists i, f. repeat split; auto. rewrite nth_error_app1; auto. apply nth_error_Some; congruence.
    + destruct (String.eqb_spec k' k); [|discriminate]. injection H as <-. subst. exists (fcount s). eexists. split; [reflexivity|].
      unfold fcount. rewrite nth_error_app2 by auto. rewrite Nat.sub_diag. cbn. split; reflexivity.
  - intros i f H. rewrite lookup_store. destruct (Nat.lt_ge_cases i (length (finfo s))).
    + rewrite nth_error_app1 in H by auto. now rewrite (T2 i f H).
    + rewrite nth_error_app2 in H by auto. destruct (i - length (finfo s)) as [|m] eqn:D; [|destruct m; discriminate].
      injection H as <-. cbn. rewrite L, String.eqb_refl. unfold fcount. f_equal. lia.
  - now apply store_nodup.
Qed.
Lemma arity_new : forall s k p a sp, arity_of (new_cell s k p a sp) (S (fcount s)) = a.
Proof. intros. unfold arity_of; cbn. unfold fcount. rewrite nth_error_app2 by auto. now rewrite Nat.sub_diag. Qed.
Lemma base_mono : forall s h h', base_ok s h -> incl h h' -> base_ok s h'.
Proof. intros s h h' B I k c H L. destruct (B k c H L) as (m & M & R). exists m. split; auto. Qed.

Lemma insert_step : forall s h name a sp s' c, inv s h -> plain_raw name ->
  (forall m b, In (m, b) h -> quoted name = true -> raw m = raw name -> b = a) ->
  sig_insert s name a sp = (s', c) -> inv s' (h ++ [(name, a)]) /\ known s' name a c.
Proof.
  intros s h name a sp s' c I (P1 & P2) OA E. apply insert_inv in E.
  assert (I' : inv s (h ++ [(name, a)])).
  { destruct I as (T & B & F). split; [auto|]. split; [|auto]. eapply base_mono; eauto. intros x X; apply in_or_app; now left. }
  assert (UQ : forall p, sig_find s (raw name) = S p -> arity_of s (S p) <> a -> quoted name = false).
  { intros p P A. destruct (quoted name) eqn:Q; [|reflexivity]. exfalso. apply A. apply find_S in P; auto.
    destruct (proj1 (proj2 I) _ _ P P2) as (m & M & R). apply (OA m _ M eq_refl R). }
  assert (G : grows s s') by (destruct E; try (destruct sp; [apply grows_special|apply grows_refl]); apply grows_new).
  assert (T := proj1 I).
  destruct E as [p P A | p q P A Q | P | p P A Q].
  - apply find_S in P; auto. split; [destruct sp; [now apply inv_special|auto]|]. apply (known_grows s); auto. split; [auto|]. now left.
  - specialize (UQ p P A). assert (R := raw_unquoted name UQ). apply find_S in P; auto. apply find_S in Q; [|now apply fix_unquoted].
    split; [destruct sp; [now apply inv_special|auto]|]. apply (known_grows s); auto.
    split.
    + destruct (proj2 (proj2 I) _ _ Q (last_char_fix name a)) as (r & R1 & R2). apply fix_name_inj in R1. symmetry. apply R1.
    + right. exists (S p). rewrite R. rewrite R in P. repeat split; auto.
  - apply find_0 in P; auto. split.
    + split; [now apply table_new|]. split.
      * intros k x H L. cbn in H. rewrite lookup_store in H. destruct (lookup k (findex s)) eqn:K.
        -- injection H as ->. rewrite (table_arity s _ k x T G K). apply (proj1 (proj2 I')); auto.
        -- destruct (String.eqb_spec k (raw name)); [|discriminate]. injection H as <-. rewrite arity_new. exists name. split; [|auto].
           apply in_or_app; right; now left.
      * intros k x H L. cbn in H. rewrite lookup_store in H. destruct (lookup k (findex s)) eqn:K.
        -- injection H as ->. rewrite (table_arity s _ k x T G K). apply (proj2 (proj2 I')); auto.
        -- destruct (String.eqb_spec k (raw name)); [|discriminate]. subst. congruence.
    + split; [apply arity_new|]. left. cbn. rewrite lookup_store, P. now rewrite String.eqb_refl.
  - specialize (UQ p P A). assert (R := raw_unquoted name UQ). apply find_S in P; auto. apply find_0 in Q; auto; [|now apply fix_unquoted]. split.
    + split; [now apply table_new|]. split.
      * intros k x H L. cbn in H. rewrite lookup_store in H. destruct (lookup k (findex s)) eqn:K.
        -- injection H as ->. rewrite (table_arity s _ k x T G K). apply (proj1 (proj2 I')); auto.
        -- destruct (String.eqb_spec k (fix_name name a)); [|discriminate]. subst. now rewrite last_char_fix in L.
      * intros k x H L. cbn in H. rewrite lookup_store in H. destruct (lookup k (findex s)) eqn:K.
        -- injection H as ->. rewrite (table_arity s _ k x T G K). apply (proj2 (proj2 I')); auto.
        -- destruct (String.eqb_spec k (fix_name name a)); [|discriminate]. injection H as <-. rewrite arity_new. exists name. split; auto.
    + split; [apply arity_new|]. right. exists (S p). rewrite (table_arity s _ _ _ T G P). cbn. rewrite !lookup_store, R. rewrite R in P. rewrite P, Q, String.eqb_refl. auto.
Qed.

Lemma one_arity_app : forall h l, one_arity_raw (h ++ l) -> one_arity_raw h.
Proof. intros h l O n a m b A B. apply O; apply in_or_app; now left. Qed.
Lemma inserts_inv : forall l s h s' cs, inv s h -> Forall (fun o => plain_raw (fst (fst o))) l -> one_arity_raw (h ++ map fst l) ->
  inserts s l = (s', cs) ->
  inv s' (h ++ map fst l) /\ Forall2 (fun o c => known s' (fst (fst o)) (snd (fst o)) c) l cs.
Proof.
  induction l as [|[[n a] sp] l IH]; intros s h s' cs I P O H; cbn in H.
  - injection H as <- <-. cbn. rewrite List.app_nil_r. split; [auto|constructor].
  - destruct (sig_insert s n a sp) as [s1 c] eqn:E. destruct (inserts s1 l) as [s2 cs'] eqn:F. injection H as <- <-. inversion P; subst.
    apply (insert_step s h) in E; auto.
    2:{ intros m b M Q R. apply (O n a m b); auto; apply in_or_app; [right; now left|now left]. }
    destruct E as (I1 & K). assert (F' := F). apply (IH s1 (h ++ [(n, a)])) in F; auto.
    2:{ rewrite <- List.app_assoc. exact O. }
    destruct F as (I2 & K2). rewrite <- List.app_assoc in I2. split; [exact I2|]. constructor; [|exact K2]. cbn.
    apply (known_grows s1); auto; [apply I1|]. eapply inserts_grows; eauto.
Qed.
Lemma inv_empty : inv empty_sig [].
Proof.
  split; [|split]; [split; [|split]| |]; cbn; try discriminate.
  - intros [|i] f H; discriminate.
  - constructor.
Qed.
Lemma known_iff : forall s n a c m b d, table s -> plain_raw n -> plain_raw m -> known s n a c -> known s m b d ->
  (c = d <-> raw n = raw m /\ a = b).
Proof.
  intros s n a c m b d T (P1 & P2) (Q1 & Q2) (A & K) (B & L). split.
  - intros <-. split; [|congruence].
    assert (U : forall k k', lookup k (findex s) = Some c -> lookup k' (findex s) = Some c -> k = k').
    { intros k k' H H'. destruct (table_cell s k c T H) as (f & F & <-). destruct (table_cell s k' c T H') as (g & G & <-). congruence. }
    destruct K as [K | (c' & K1 & K2 & K3)], L as [L | (d' & L1 & L2 & L3)].
    + now apply U.
    + exfalso. apply P2. rewrite (U _ _ K L3). apply last_char_fix.
    + exfalso. apply Q2. rewrite <- (U _ _ K3 L). apply last_char_fix.
    + apply (fix_name_inj _ a _ b). now apply U.
  - intros (R & <-). rewrite <- R in L. destruct K as [K | (c' & K1 & K2 & K3)], L as [L | (d' & L1 & L2 & L3)]; congruence.
Qed.

(** ** The array *)
Lemma insert_room : forall s n a sp s' c, fcount s < fsize s -> sig_insert s n a sp = (s', c) -> 
  fcount s' < fsize s' /\ fcount s <= fcount s' /\ ((c = S (fcount s) /\ fcount s' = S (fcount s)) \/ fcount s' = fcount s).
Proof.
  intros s n a sp s' c R H. apply insert_inv in H.
  assert (SP : forall x, fcount (if sp then set_special s x else s) = fcount s /\ fsize (if sp then set_special s x else s) = fsize s).
  { intro x. destruct sp; [|auto]. unfold fcount, set_special; cbn. now rewrite set_nth_length. }
  assert (NW : forall k p, fcount (new_cell s k p a sp) = S (fcount s) /\ fcount (new_cell s k p a sp) < fsize (new_cell s k p a sp)).
  { intros k p. assert (C : fcount (new_cell s k p a sp) = S (fcount s)) by (unfold fcount; cbn; rewrite app_length; cbn; lia). split; [exact C|]. rewrite C. cbn. unfold grow.
    destruct (Nat.eqb_spec (fcount s) (fsize s - 1)); lia. }
  destruct H as [p P A | p q P A Q | P | p P A Q].
  - destruct (SP (S p)) as [-> ->]. auto.
  - destruct (SP (S q)) as [-> ->]. auto.
  - destruct (NW (raw n) n) as [-> B]. split; [lia|]. split; [lia|]. left; auto.
  - destruct (NW (fix_name n a) (raw n)) as [-> B]. split; [lia|]. split; [lia|]. left; auto.
Qed.
Lemma inserts_room : forall l s s' cs, fcount s < fsize s -> inserts s l = (s', cs) -> fcount s' < fsize s' /\ fcount s <= fcount s'.
Proof.
  induction l as [|[[n a] sp] l IH]; intros s s' cs R H; cbn in H; [injection H as <- <-; auto|].
  destruct (sig_insert s n a sp) as [s1 c] eqn:E. destruct (inserts s1 l) as [s2 cs'] eqn:F. injection H as <- <-.
  apply insert_room in E; auto. destruct E as (A & B & _). apply IH in F; auto. lia.
Qed.
(** codes are between 1 and f_count, whatever the names *)
Definition codes_in (s : sig) : Prop := forall k c, lookup k (findex s) = Some c -> 1 <= c <= fcount s.
Lemma insert_codes : forall s n a sp s' c, codes_in s -> sig_insert s n a sp = (s', c) -> codes_in s' /\ 1 <= c <= fcount s'.
Proof.
  intros s n a sp s' c R H. apply insert_inv in H.
  assert (FD : forall k x, sig_find s k = S x -> 1 <= S x <= fcount s).
  { intros k x F. unfold sig_find in F. destruct (lookup (raw k) (findex s)) eqn:L; [|discriminate]. subst. eauto. }
  assert (SP : forall x, codes_in (if sp then set_special s x else s) /\ fcount (if sp then set_special s x else s) = fcount s).
  { intro x. destruct sp; [|auto]. unfold codes_in, fcount, set_special; cbn. rewrite set_nth_length. auto. }
  assert (NW : forall k p, codes_in (new_cell s k p a sp) /\ fcount (new_cell s k p a sp) = S (fcount s)).
  { intros k p. assert (C : fcount (new_cell s k p a sp) = S (fcount s)) by (unfold fcount; cbn; rewrite app_length; cbn; lia). split; [|exact C].
    intros k' x L. rewrite C. cbn in L. rewrite lookup_store in L. destruct (lookup k' (findex s)) eqn:E.
    - injection L as ->. apply R in E. lia.
    - destruct (String.eqb k' k); [|discriminate]. injection L as <-. lia. }
  destruct H as [p P A | p q P A Q | P | p P A Q].
  - destruct (SP (S p)) as [X ->]. split; eauto.
  - destruct (SP (S q)) as [X ->]. split; eauto.
  - destruct (NW (raw n) n) as [X ->]. split; [auto|lia].
  - destruct (NW (fix_name n a) (raw n)) as [X ->]. split; [auto|lia].
Qed.
Lemma inserts_codes : forall l s s' cs, codes_in s -> fcount s < fsize s -> inserts s l = (s', cs) -> codes_in s' /\ Forall (fun c => 1 <= c <= fcount s') cs.
Proof.
  induction l as [|[[n a] sp] l IH]; intros s s' cs R M H; cbn in H; [injection H as <- <-; auto|].
  destruct (sig_insert s n a sp) as [s1 c] eqn:E. destruct (inserts s1 l) as [s2 cs'] eqn:F. injection H as <- <-.
  assert (E' := E). apply insert_codes in E; auto. apply insert_room in E'; auto. destruct E as (E1 & E2). destruct E' as (E3 & _).
  assert (F' := F). apply IH in F; auto. apply inserts_room in F'; auto. destruct F as (F1 & F2). split; [auto|]. constructor; [lia|auto].
Qed.
Lemma codes_empty : codes_in empty_sig. Proof. intros k c H; discriminate. Qed.
Lemma room_empty : fcount empty_sig < fsize empty_sig. Proof. cbn; lia. Qed.

(** ** New symbols *)
Lemma append_inj : forall p s t, (p ++ s = p ++ t)%string -> s = t.
Proof. intros p s t H. apply (f_equal la) in H. rewrite !la_app in H. apply app_inv_head in H. now apply la_inj. Qed.
Lemma new_name_inj : forall p k m a, new_name p k a = new_name p m a -> k = m.
Proof.
  intros p k m a H. unfold new_name in H. apply append_inj in H. apply (f_equal la) in H. rewrite !la_app in H. apply app_inv_tail in H.
  apply la_inj in H. now apply print_nat_inj.
Qed.
Lemma unused_spec : forall fuel s p k a r, unused fuel s p k a = Some r -> k <= r /\ sig_find s (new_name p r a) = 0.
Proof.
  induction fuel as [|m IH]; intros s p k a r H; cbn in H; [discriminate|].
  destruct (Nat.eqb_spec (sig_find s (new_name p k a)) 0).
  - injection H as <-. auto.
  - apply IH in H. split; [lia|tauto].
Qed.
Lemma unused_stops : forall fuel s p k a, quoted p = false -> p <> EmptyString -> unused fuel s p k a = None ->
  forall i, i < fuel -> In (new_name p (k + i) a) (map fst (findex s)).
Proof.
  induction fuel as [|m IH]; intros s p k a Q N H i L; [lia|]. cbn in H.
  destruct (Nat.eqb_spec (sig_find s (new_name p k a)) 0) as [|NZ]; [discriminate|]. destruct i as [|i].
  - rewrite Nat.add_0_r. assert (Qn : quoted (new_name p k a) = false) by (destruct p; [congruence|exact Q]). rewrite find_lookup in NZ by auto.
    destruct (lookup (new_name p k a) (findex s)) eqn:E; [|congruence]. eapply lookup_In; eauto.
  - replace (k + S i) with (S k + i) by lia. apply IH; auto. lia.
Qed.
Lemma unused_total : forall s p k a fuel, quoted p = false -> p <> EmptyString -> length (findex s) < fuel -> unused fuel s p k a <> None.
Proof.
  intros s p k a fuel Q N L H. assert (I := unused_stops fuel s p k a Q N H).
  assert (D : NoDup (map (fun i => new_name p (k + i) a) (seq 0 fuel))).
  { apply FinFun.Injective_map_NoDup; [|apply seq_NoDup]. intros i j E. apply new_name_inj in E. lia. }
  assert (LE : length (map (fun i => new_name p (k + i) a) (seq 0 fuel)) <= length (map fst (findex s))).
  { apply NoDup_incl_length; [auto|]. intros x X. apply in_map_iff in X. destruct X as (i & <- & X). apply in_seq in X. apply I. lia. }
  rewrite !map_length, seq_length in LE. lia.
Qed.
Lemma index_length : forall s n a sp s' c, length (findex s) <= fcount s -> sig_insert s n a sp = (s', c) -> length (findex s') <= fcount s'.
Proof.
  intros s n a sp s' c R H. apply insert_inv in H.
  assert (SP : forall x, length (findex (if sp then set_special s x else s)) <= fcount (if sp then set_special s x else s)).
  { intro x. destruct sp; [|auto]. unfold fcount, set_special; cbn. rewrite set_nth_length. auto. }
  assert (NW : forall k p, length (findex (new_cell s k p a sp)) <= fcount (new_cell s k p a sp)).
  { intros k p. unfold fcount in *; cbn. rewrite app_length; cbn. unfold store. destruct (lookup k (findex s)); cbn; lia. }
  destruct H; auto.
Qed.
Lemma inserts_index_length : forall l s s' cs, length (findex s) <= fcount s -> inserts s l = (s', cs) -> length (findex s') <= fcount s'.
Proof.
  induction l as [|[[n a] sp] l IH]; intros s s' cs R H; cbn in H; [injection H as <- <-; auto|].
  destruct (sig_insert s n a sp) as [s1 c] eqn:E. destruct (inserts s1 l) as [s2 cs'] eqn:F. injection H as <- <-.
  apply index_length in E; auto. eauto.
Qed.
Lemma inserts_app : forall l1 l2 s s1 cs1 s2 cs2, inserts s l1 = (s1, cs1) -> inserts s1 l2 = (s2, cs2) -> inserts s (l1 ++ l2) = (s2, cs1 ++ cs2).
Proof.
  induction l1 as [|[[n a] sp] l IH]; intros l2 s s1 cs1 s2 cs2 A B; cbn in A; [injection A as <- <-; auto|].
  destruct (sig_insert s n a sp) as [s' c] eqn:E. destruct (inserts s' l) as [s'' cs'] eqn:F. injection A as <- <-.
  cbn. rewrite E. now rewrite (IH l2 _ _ _ _ _ F B).
Qed.
Lemma inserts_app_inv : forall l1 l2 s s2 cs, inserts s (l1 ++ l2) = (s2, cs) -> exists s1 cs1 cs2, inserts s l1 = (s1, cs1) /\ inserts s1 l2 = (s2, cs2) /\ cs = cs1 ++ cs2.
Proof.
  intros l1 l2 s s2 cs H. destruct (inserts s l1) as [s1 cs1] eqn:A. destruct (inserts s1 l2) as [s2' cs2] eqn:B.
  rewrite (inserts_app _ _ _ _ _ _ _ A B) in H. injection H as <- <-. exists s1, cs1, cs2. auto.
Qed.

(** ** Backtracking *)
Lemma pop_table : forall s, table s -> fcount s <> 0 ->
  table (sig_pop s) /\ finfo (sig_pop s) = firstn (fcount s - 1) (finfo s) /\
  (forall k c, lookup k (findex (sig_pop s)) = Some c <-> lookup k (findex s) = Some c /\ c <= fcount s - 1).
Proof.
  intros s (T1 & T2 & T3) NZ. unfold sig_pop. destruct (rev (finfo s)) as [|f r] eqn:R.
  - exfalso. apply NZ. unfold fcount. rewrite <- rev_length, R. reflexivity.
  - assert (F : finfo s = rev r ++ [f]) by (rewrite <- (rev_involutive (finfo s)), R; reflexivity).
    assert (C : fcount s = S (length (rev r))) by (unfold fcount; rewrite F, app_length; cbn; lia).
    assert (LF : lookup (iname f) (findex s) = Some (fcount s)).
    { rewrite C. apply T2. rewrite F. rewrite nth_error_app2 by lia. now rewrite Nat.sub_diag. }
    assert (LK : forall k c, lookup k (delete (iname f) (findex s)) = Some c <-> lookup k (findex s) = Some c /\ c <= fcount s - 1).
    { intros k c. rewrite lookup_delete by auto. destruct (String.eqb_spec k (iname f)).
      - subst. split; [discriminate|]. intros (A & B). rewrite LF in A. injection A as <-. lia.
      - split; [|tauto]. intro A. split; [auto|]. destruct (T1 k c A) as (i & g & -> & N & I).
        assert (B : i < fcount s) by (apply nth_error_Some; congruence). rewrite C in *. destruct (Nat.eq_dec i (length (rev r))); [|lia].
        subst i. rewrite F, nth_error_app2, Nat.sub_diag in N by lia. cbn in N. injection N as <-. congruence. }
    split; [split; [|split]|split]; cbn.
    + intros k c H. apply LK in H. destruct H as (H & L). destruct (T1 k c H) as (i & g & -> & N & I). exists i, g. repeat split; auto.
      rewrite F, nth_error_app1 in N by lia. exact N.
    + intros i g H. apply LK. assert (i < length (rev r)) by (apply nth_error_Some; congruence). split; [|lia]. apply T2. now rewrite F, nth_error_app1.
    + now apply delete_nodup.
    + rewrite C, F. cbn. rewrite Nat.sub_0_r. rewrite firstn_app, Nat.sub_diag, firstn_all. cbn. now rewrite List.app_nil_r.
    + exact LK.
Qed.
Lemma pops_table : forall k s, table s -> k <= fcount s ->
  finfo (pops k s) = firstn (fcount s - k) (finfo s) /\ (forall x c, lookup x (findex (pops k s)) = Some c <-> lookup x (findex s) = Some c /\ c <= fcount s - k).
Proof.
  induction k as [|k IH]; intros s T L; cbn [pops].
  - rewrite Nat.sub_0_r. unfold fcount. rewrite firstn_all. split; [reflexivity|]. intros x c. split; [|tauto]. intro H. split; [auto|].
    destruct (proj1 T x c H) as (i & f & -> & N & _). assert (i < length (finfo s)) by (apply nth_error_Some; congruence). lia.
  - destruct (pop_table s T ltac:(lia)) as (T' & F & LK). assert (C : fcount (sig_pop s) = fcount s - 1).
    { unfold fcount. rewrite F, firstn_length. unfold fcount. lia. }
    destruct (IH (sig_pop s) T' ltac:(lia)) as (F2 & LK2). rewrite C in *. split.
    + rewrite F2, F, firstn_firstn. f_equal. lia.
    + intros x c. rewrite LK2, LK. replace (fcount s - 1 - k) with (fcount s - S k) by lia. intuition lia.
Qed.
Lemma backtrack_spec : forall s s2, table s -> table s2 -> grows s s2 -> fcount s <= fcount s2 ->
  (forall k, lookup k (findex (sig_backtrack s2 (fcount s))) = lookup k (findex s)) /\
  Forall2 same (finfo s) (finfo (sig_backtrack s2 (fcount s))).
Proof.
  intros s s2 T T2 (G1 & G2) L. unfold sig_backtrack. destruct (pops_table (fcount s2 - fcount s) s2 T2 ltac:(lia)) as (F & LK).
  replace (fcount s2 - (fcount s2 - fcount s)) with (fcount s) in * by lia. split.
  - intro k. destruct (lookup k (findex s)) as [c|] eqn:E.
    + apply LK. split; [auto|]. destruct (proj1 T k c E) as (i & f & -> & N & _). apply nth_error_Some. congruence.
    + destruct (lookup k (findex (pops (fcount s2 - fcount s) s2))) as [c|] eqn:E2; [|reflexivity]. apply LK in E2. destruct E2 as (A & B).
      destruct (proj1 T2 k c A) as (i & g & -> & N & I). destruct (nth_error (finfo s) i) as [f|] eqn:M.
      * destruct (G2 i f M) as (g' & N' & (S1 & _)). assert (g' = g) by congruence. subst g'. rewrite <- I, <- S1 in E.
        rewrite (proj1 (proj2 T) i f M) in E. discriminate.
      * apply nth_error_None in M. unfold fcount in B. lia.
  - rewrite F. assert (LE : length (finfo s) = length (firstn (fcount s) (finfo s2))) by (rewrite firstn_length; unfold fcount in *; lia).
    clear F LK. revert LE. assert (G3 : forall i f, nth_error (finfo s) i = Some f -> exists g, nth_error (firstn (fcount s) (finfo s2)) i = Some g /\ same f g).
    { intros i f H. destruct (G2 i f H) as (g & N & SM). exists g. split; [|auto]. assert (i < fcount s) by (apply nth_error_Some; congruence).
      rewrite <- (firstn_skipn (fcount s) (finfo s2)) in N. rewrite nth_error_app1 in N; auto. rewrite firstn_length. unfold fcount in *. lia. }
    revert G3. generalize (firstn (fcount s) (finfo s2)). generalize (finfo s). clear.
    induction l as [|f l IH]; intros [|g k] G LE; try discriminate; constructor.
    + destruct (G 0 f eq_refl) as (g' & E & SM). injection E as <-. exact SM.
    + apply IH; [|now injection LE]. intros i h H. exact (G (S i) h H).
Qed.

(** ** Let scopes *)
Definition names (sc : list (option nat * string)) : list string := map snd sc.
Definition idx_nodup (s : sig) : Prop := NoDup (map fst (findex s)).
Definition positive (s : sig) : Prop := forall k, lookup k (findex s) <> Some 0.
Lemma enter_none : forall ids, fold_left enter1 ids None = None.
Proof. induction ids; auto. Qed.
Lemma enter_spec : forall ids s sc s1 sc1,
  (forall id f, In id ids -> cell s id = Some f -> quoted (iname f) = false) ->
  positive s -> fold_left enter1 ids (Some (s, sc)) = Some (s1, sc1) ->
  exists new, sc1 = new ++ sc /\ finfo s1 = finfo s /\ positive s1 /\ (idx_nodup s -> idx_nodup s1) /\
    (forall k, ~ In k (names new) -> lookup k (findex s1) = lookup k (findex s)) /\
    (forall k, In k (names new) -> exists id f, In id ids /\ cell s id = Some f /\ iname f = k) /\
    (forall id f, In id ids -> cell s id = Some f -> In (iname f) (names new)) /\
    (forall l1 id l2 f, ids = l1 ++ id :: l2 -> cell s id = Some f -> (forall j g, In j l2 -> cell s j = Some g -> iname g <> iname f) -> lookup (iname f) (findex s1) = Some id) /\
    (forall k, In k (names new) -> lookup k (findex s1) <> None) /\
    (forall s2, idx_nodup s2 -> (forall k, In k (names new) -> lookup k (findex s2) = lookup k (findex s1)) ->
       idx_nodup (exit_scope s2 new) /\
       forall k, lookup k (findex (exit_scope s2 new)) = if in_dec string_dec k (names new) then lookup k (findex s) else lookup k (findex s2)).
Proof.
  induction ids as [|id ids IH]; intros s sc s1 sc1 Q PO H; cbn [fold_left] in H.
  - injection H as <- <-. exists []. repeat split; auto; cbn; try tauto. intros [|? ?] ? ? ? X; discriminate.
  - cbn [enter1] in H. destruct (cell s id) as [f|] eqn:CE; [|rewrite enter_none in H; discriminate].
    assert (Qf : quoted (iname f) = false) by (apply (Q id f); auto; now left).
    assert (IDP : id <> 0) by (intros ->; discriminate).
    set (e := (match lookup (iname f) (findex s) with Some c => Some c | None => None end, iname f)).
    assert (H' : exists s', fold_left enter1 ids (Some (s', e :: sc)) = Some (s1, sc1) /\ finfo s' = finfo s /\ positive s' /\ (idx_nodup s -> idx_nodup s') /\
      (forall k, lookup k (findex s') = if String.eqb k (iname f) then Some id else lookup k (findex s))).
    { rewrite find_lookup in H by auto. unfold e. destruct (lookup (iname f) (findex s)) as [c|] eqn:L.
      - destruct c as [|c]; [exfalso; exact (PO _ L)|]. cbn [Nat.eqb negb] in H. eexists. split; [exact H|]. cbn. split; [reflexivity|].
        assert (LK : forall k, lookup k (assign (iname f) id (findex s)) = if String.eqb k (iname f) then Some id else lookup k (findex s)).
        { intro k. rewrite lookup_assign. destruct (String.eqb_spec k (iname f)); [subst; now rewrite L|reflexivity]. }
        repeat split; auto.
        + intros k. cbn. rewrite LK. destruct (String.eqb k (iname f)); [congruence|apply PO].
        + unfold idx_nodup; cbn. now rewrite assign_keys.
      - cbn [Nat.eqb negb] in H. eexists. split; [exact H|]. cbn. split; [reflexivity|].
        assert (LK : forall k, lookup k (store (iname f) id (findex s)) = if String.eqb k (iname f) then Some id else lookup k (findex s)).
        { intro k. rewrite lookup_store. destruct (String.eqb_spec k (iname f)); [subst; now rewrite L|]. now destruct (lookup k (findex s)). }
        repeat split; auto.
        + intros k. cbn. rewrite LK. destruct (String.eqb k (iname f)); [congruence|apply PO].
        + unfold idx_nodup; cbn. apply store_nodup. }
    destruct H' as (s' & H' & FI & PO' & ND & LK).
    assert (CS : forall i, cell s' i = cell s i) by (intros [|i]; cbn; [reflexivity|now rewrite FI]).
    destruct (IH s' (e :: sc) s1 sc1) as (new & N1 & N2 & N3 & N4 & N5 & N6 & N7 & N8 & N9 & N10); auto.
    { intros i g I C. rewrite CS in C. apply (Q i g); auto. now right. }
    assert (NM : names (new ++ [e]) = names new ++ [iname f]) by (unfold names; rewrite map_app; reflexivity).
    exists (new ++ [e]). rewrite NM. repeat split.
    + rewrite N1, <- List.app_assoc. reflexivity.
    + congruence.
    + exact N3.
    + auto.
    + intros k NI. rewrite N5 by (intro X; apply NI; apply in_or_app; now left). rewrite LK. destruct (String.eqb_spec k (iname f)); [|reflexivity].
      exfalso. apply NI. apply in_or_app. right; now left.
    + intros k X. apply in_app_or in X. destruct X as [X | [X | []]].
      * destruct (N6 k X) as (i & g & A & B & C). exists i, g. rewrite CS in B. split; [now right|auto].
      * exists id, f. split; [now left|auto].
    + intros i g [<- | X] C.
      * assert (f = g) by congruence. subst. apply in_or_app. right; now left.
      * apply in_or_app. left. apply (N7 i g X). now rewrite CS.
    + intros l1 i l2 g EQ C DI. destruct l1 as [|j l1]; cbn in EQ; injection EQ as -> ->.
      * assert (f = g) by congruence. subst. rewrite N5, LK, String.eqb_refl; [reflexivity|]. intro X. destruct (N6 _ X) as (j & h & A & B & D).
        rewrite CS in B. apply (DI j h A B D).
      * apply (N8 l1 i l2 g eq_refl); [now rewrite CS|]. intros j' h J C'. rewrite CS in C'. eapply DI; eauto.
    + intros k X. destruct (in_dec string_dec k (names new)) as [I | NI]; [now apply N9|]. rewrite N5, LK by auto.
      apply in_app_or in X. destruct X as [X | [X | []]]; [contradiction|]. subst. rewrite String.eqb_refl. discriminate.
    + destruct (N10 s2) as (D & E); auto; [intros k X; apply H1; apply in_or_app; now left|]. unfold exit_scope. rewrite fold_left_app. cbn [fold_left].
      unfold e. destruct (lookup (iname f) (findex s)); unfold idx_nodup; cbn; [now rewrite assign_keys|now apply delete_nodup].
    + destruct (N10 s2) as (D & E); auto; [intros k X; apply H1; apply in_or_app; now left|]. intro k. unfold exit_scope. rewrite fold_left_app. cbn [fold_left].
      fold (exit_scope s2 new).
      assert (PR : lookup (iname f) (findex (exit_scope s2 new)) = Some id).
      { rewrite E. destruct (in_dec string_dec (iname f) (names new)) as [I | NI].
        - now rewrite LK, String.eqb_refl.
        - rewrite H1 by (apply in_or_app; right; now left). rewrite N5, LK, String.eqb_refl by auto. reflexivity. }
      assert (R : lookup k (findex (exit1 (exit_scope s2 new) e)) = if String.eqb k (iname f) then lookup (iname f) (findex s) else lookup k (findex (exit_scope s2 new))).
      { unfold e. destruct (lookup (iname f) (findex s)) as [c|] eqn:L; cbn.
        - rewrite lookup_assign. destruct (String.eqb_spec k (iname f)); [|reflexivity]. subst. now rewrite PR.
        - rewrite lookup_delete by exact D. reflexivity. }
      rewrite R. destruct (String.eqb_spec k (iname f)).
      * subst. destruct (in_dec string_dec (iname f) (names new ++ [iname f])) as [I | NI]; [reflexivity|]. exfalso. apply NI. apply in_or_app. right; now left.
      * rewrite E. destruct (in_dec string_dec k (names new)) as [I | NI], (in_dec string_dec k (names new ++ [iname f])) as [I2 | NI2]; auto.
        -- rewrite LK. destruct (String.eqb_spec k (iname f)); congruence.
        -- exfalso. apply NI2. apply in_or_app. now left.
        -- exfalso. apply in_app_or in I2. destruct I2 as [I2 | [I2 | []]]; congruence.
Qed.
Lemma enter_total : forall ids s sc, positive s -> (forall id, In id ids -> exists f, cell s id = Some f /\ quoted (iname f) = false) ->
  fold_left enter1 ids (Some (s, sc)) <> None.
Proof.
  induction ids as [|id ids IH]; intros s sc PO Q; cbn [fold_left]; [discriminate|]. cbn [enter1].
  destruct (Q id (or_introl eq_refl)) as (f & C & Qf). rewrite C. rewrite find_lookup by auto.
  assert (IDP : id <> 0) by (intros ->; discriminate).
  destruct (lookup (iname f) (findex s)) as [[|c]|] eqn:L; [exfalso; exact (PO _ L)| |]; cbn [Nat.eqb negb]; apply IH.
  - intros k. cbn. rewrite lookup_assign. destruct (String.eqb k (iname f)); [|apply PO]. destruct (lookup k (findex s)); congruence.
  - intros i I. destruct (Q i (or_intror I)) as (g & G & H). exists g. split; [|auto]. destruct i; [discriminate|exact G].
  - intros k. cbn. rewrite lookup_store. destruct (lookup k (findex s)) eqn:E; [rewrite <- E; apply PO|]. destruct (String.eqb k (iname f)); congruence.
  - intros i I. destruct (Q i (or_intror I)) as (g & G & H). exists g. split; [|auto]. destruct i; [discriminate|exact G].
Qed.
Lemma insert_nodup : forall s n a sp s' c, idx_nodup s -> sig_insert s n a sp = (s', c) -> idx_nodup s'.
Proof.
  intros s n a sp s' c R H. apply insert_inv in H. unfold idx_nodup in *.
  destruct H; try (destruct sp; exact R); cbn; now apply store_nodup.
Qed.
Lemma inserts_nodup : forall l s s' cs, idx_nodup s -> inserts s l = (s', cs) -> idx_nodup s'.
Proof.
  induction l as [|[[n a] sp] l IH]; intros s s' cs R H; cbn in H; [injection H as <- <-; auto|].
  destruct (sig_insert s n a sp) as [s1 c] eqn:E. destruct (inserts s1 l) as [s2 cs'] eqn:F. injection H as <- <-.
  apply insert_nodup in E; auto. eauto.
Qed.
