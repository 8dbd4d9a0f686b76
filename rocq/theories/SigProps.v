(** * C44: symbols of the input and symbols of the prover *)
From Coq Require Import String Ascii List ZArith Lia Bool Arith.
From Verif Require Import Sig SigProofs.
Import ListNotations.
Local Open Scope nat_scope.
Local Open Scope list_scope.

(** ** Two occurrences get the same code exactly if they have the same name (up to quotes) and the same arity.
    Missing: quoted names with several arities (see [C44_quoted_arity_refuted]), names with a quote inside the quotes at the start, and
    names ending with a blank (see [C44_arityfix_refuted]). *)
Theorem C44_symbols_partial : forall l s cs, inserts empty_sig l = (s, cs) ->
  Forall (fun o => plain (fst (fst o))) l -> one_arity (map fst l) ->
  forall i j q n a sp r m b sq c d,
    nth_error l i = Some (written q n, a, sp) -> nth_error l j = Some (written r m, b, sq) -> nth_error cs i = Some c -> nth_error cs j = Some d ->
    (forall n', n <> String "'" n') -> (forall m', m <> String "'" m') ->
    (c = d <-> n = m /\ a = b) /\ arity_of s c = a.
Proof.
  intros l s cs H P O i j q n a sp r m b sq c d Hi Hj Ci Cj N M.
  assert (P' : Forall (fun o => plain_raw (fst (fst o))) l) by (revert P; apply Forall_impl; intros o; apply plain_is_raw).
  assert (O' : one_arity_raw (map fst l)) by (apply one_arity_is_raw; [rewrite Forall_map; exact P|exact O]).
  destruct (inserts_inv l empty_sig [] s cs inv_empty P' O' H) as ((T & _) & K).
  assert (KN : forall i n a sp c, nth_error l i = Some (n, a, sp) -> nth_error cs i = Some c -> known s n a c).
  { clear - K. induction K as [|[[n a] sp] c l cs K _ IH]; intros [|i] n' a' sp' c' A B; try discriminate; cbn in A, B.
    - injection A as -> -> ->. injection B as ->. exact K.
    - eapply IH; eauto. }
  assert (PL : forall i n a sp, nth_error l i = Some (n, a, sp) -> plain_raw n).
  { intros i' n' a' sp' A. apply nth_error_In in A. rewrite Forall_forall in P'. apply (P' _ A). }
  assert (Ki := KN _ _ _ _ _ Hi Ci). assert (Kj := KN _ _ _ _ _ Hj Cj). split; [|apply Ki].
  assert (X := known_iff s _ a c _ b d T (PL _ _ _ _ Hi) (PL _ _ _ _ Hj) Ki Kj).
  rewrite !raw_written in X by now apply not_quoted. exact X.
Qed.

Local Open Scope string_scope.
Definition l0 : list (occurrence * bool) :=
  [("$true", 0%Z, true); ("f", 1%Z, false); ("f", 2%Z, false); ("'f g'", 2%Z, false); ("f", 1%Z, false); ("'f'", 2%Z, false); ("f", 2%Z, false); ("g", 0%Z, false);
   ("'g'", 0%Z, false); ("f_ARITYFIX2", 2%Z, false)].
Local Close Scope string_scope.
(** the hypotheses are met by a history with two arities of one symbol and quoted names (without ['f'] of arity 2) *)
Definition l1 : list (occurrence * bool) := firstn 5 l0 ++ skipn 6 l0.
Example C44_symbols_case : snd (inserts empty_sig l1) = [1; 2; 3; 4; 2; 3; 5; 5; 6] /\ Forall (fun o => plain (fst (fst o))) l1 /\ one_arity (map fst l1).
Proof.
  split; [reflexivity|]. split.
  - repeat (apply Forall_cons || apply Forall_nil); cbn;
      match goal with |- plain (String "'" ?x) => exists true, (drop_last x) | |- plain ?x => exists false, x end; (split; [reflexivity|split; [|cbn]; discriminate]).
  - apply one_arityb_ok. reflexivity.
Qed.

(** ** Codes are positions in the array, and every cell is written inside the allocated array *)
Theorem C44_array : forall l s cs, inserts empty_sig l = (s, cs) -> fcount s < fsize s /\ Forall (fun c => 1 <= c <= fcount s) cs.
Proof.
  intros l s cs H. split.
  - apply (inserts_room _ _ _ _ room_empty H).
  - apply (inserts_codes _ _ _ _ codes_empty room_empty H).
Qed.
Example C44_array_case : let '(s, cs) := inserts empty_sig (map (fun i => (new_name "f" i 0, 0%Z, false)) (seq 0 50)) in
  fcount s = 50 /\ fsize s = 80 /\ length (finfo s) = 50.
Proof. vm_compute. auto. Qed.

(** ** A new symbol of the prover (Skolem functions, definitions, split literals) is different from every symbol so far, has the arity
    asked for, and is found as long as the counter does not overflow *)
Theorem C44_fresh : forall l s cs prefix counter arity fuel,
  inserts empty_sig l = (s, cs) -> quoted prefix = false -> prefix <> EmptyString -> fcount s < fuel ->
  exists s' c k, sig_new fuel s prefix counter arity = Some (s', c, k) /\ counter < k /\
    ~ In c cs /\ c = S (fcount s) /\ arity_of s' c = Z.of_nat arity /\ sig_find s' (new_name prefix k arity) = c /\
    (forall n, sig_find s n <> 0 -> sig_find s' n = sig_find s n) /\
    inserts empty_sig (l ++ [(new_name prefix k arity, Z.of_nat arity, false)]) = (s', cs ++ [c]).
Proof.
  intros l s cs p k a fuel H Q N F. unfold sig_new.
  assert (LI : length (findex s) <= fcount s) by (apply (inserts_index_length l empty_sig s cs); [cbn; auto|auto]).
  destruct (unused fuel s p (S k) a) as [r|] eqn:U; [|exfalso; eapply (unused_total s p (S k) a fuel); eauto; lia].
  destruct (unused_spec _ _ _ _ _ _ U) as (LE & FR).
  assert (QN : quoted (new_name p r a) = false) by (destruct p; [congruence|exact Q]).
  assert (RN := raw_unquoted _ QN).
  destruct (sig_insert s (new_name p r a) (Z.of_nat a) false) as [s' c] eqn:E. exists s', c, r. split; [reflexivity|]. split; [lia|].
  assert (E' := insert_inv _ _ _ _ _ _ E). rewrite <- RN in FR.
  assert (G := insert_grows _ _ _ _ _ _ E).
  assert (X : s' = new_cell s (raw (new_name p r a)) (new_name p r a) (Z.of_nat a) false /\ c = S (fcount s)).
  { destruct E' as [q P A | q q' P A Q' | P | q P A Q']; [congruence|congruence|auto|congruence]. }
  destruct X as (-> & ->). rewrite RN in FR.
  assert (CI := inserts_codes _ _ _ _ codes_empty room_empty H). destruct CI as (CI & CC).
  split.
  { intro I. rewrite Forall_forall in CC. apply CC in I. lia. }
  split; [reflexivity|]. split; [apply arity_new|]. split.
  { rewrite find_lookup by auto. cbn. rewrite RN, lookup_store, String.eqb_refl. rewrite find_lookup in FR by auto.
    destruct (lookup (new_name p r a) (findex s)) as [x|] eqn:L; [|reflexivity]. subst. apply CI in L. lia. }
  split.
  { intros n NZ. unfold sig_find in *. destruct (lookup (raw n) (findex s)) as [x|] eqn:L; [|congruence]. now rewrite (proj1 G _ _ L). }
  eapply inserts_app; [exact H|]. cbn [inserts]. now rewrite E.
Qed.
(** the name with the next counter is in use *)
Example C44_fresh_case : let l := [("esk1_0"%string, 0%Z, false); ("esk2_0"%string, 3%Z, false)] in
  match sig_new 3 (fst (inserts empty_sig l)) "esk" 0 0 with Some (_, c, k) => (c, k) = (3, 3) | None => False end.
Proof. vm_compute. reflexivity. Qed.

(** ** Backtracking: the symbols of a job are removed without a trace for later lookups (for the names of [C44_symbols_partial]) *)
Theorem C44_backtrack_partial : forall l l' s cs s' cs',
  inserts empty_sig l = (s, cs) -> inserts s l' = (s', cs') ->
  Forall (fun o => plain (fst (fst o))) (l ++ l') -> one_arity (map fst (l ++ l')) ->
  let r := sig_backtrack s' (fcount s) in
  fcount r = fcount s /\ (forall n, sig_find r n = sig_find s n) /\
  map (fun f => (iname f, ipname f, iarity f)) (finfo r) = map (fun f => (iname f, ipname f, iarity f)) (finfo s).
Proof.
  intros l l' s cs s' cs' H H' P0 O0 r.
  assert (P : Forall (fun o => plain_raw (fst (fst o))) (l ++ l')) by (revert P0; apply Forall_impl; intros o; apply plain_is_raw).
  assert (O : one_arity_raw (map fst (l ++ l'))) by (apply one_arity_is_raw; [rewrite Forall_map; exact P0|exact O0]).
  apply Forall_app in P. destruct P as (P & P'). rewrite map_app in O.
  destruct (inserts_inv l empty_sig [] s cs inv_empty P (one_arity_app _ _ O) H) as (I & _).
  destruct (inserts_inv l' s _ s' cs' I P' O H') as (I' & _).
  destruct (backtrack_spec s s' (proj1 I) (proj1 I') (inserts_grows _ _ _ _ H')) as (L & F).
  { eapply inserts_room; eauto. eapply inserts_room; eauto. apply room_empty. }
  fold r in L, F. assert (M : map (fun f => (iname f, ipname f, iarity f)) (finfo r) = map (fun f => (iname f, ipname f, iarity f)) (finfo s)).
  { clear - F. induction F as [|f g lf lg (A & B & C) _ IH]; cbn; [reflexivity|]. now rewrite IH, A, B, C. }
  split; [|split; [|exact M]].
  - unfold fcount. apply (f_equal (@length _)) in M. now rewrite !map_length in M.
  - intro n. unfold sig_find. now rewrite L.
Qed.
Example C44_backtrack_case : let s := fst (inserts empty_sig (firstn 3 l1)) in let s' := fst (inserts s (skipn 3 l1)) in
  fcount s = 3 /\ fcount s' = 6 /\ sig_find s' "g" = 5 /\ sig_find (sig_backtrack s' (fcount s)) "g" = 0 /\ sig_find (sig_backtrack s' (fcount s)) "f" = 2.
Proof. vm_compute. auto. Qed.

(** ** Let: inside, a declared name means the declared symbol; afterwards it means what it meant before *)
Lemma lets_spec : forall ds s s' ids, lets s ds = (s', ids) ->
  findex s' = findex s /\ (exists ext, finfo s' = finfo s ++ ext) /\
  Forall2 (fun d id => fcount s < id /\ exists f, cell s' id = Some f /\ iname f = fst d) ds ids.
Proof.
  induction ds as [|[n a] ds IH]; intros s s' ids H; cbn in H.
  - injection H as <- <-. split; [reflexivity|]. split; [exists []; now rewrite app_nil_r|constructor].
  - match type of H with (let '(_, _) := lets ?x _ in _) = _ => set (s1 := x) in * end.
    destruct (lets s1 ds) as [s2 cs] eqn:E. injection H as <- <-. destruct (IH _ _ _ E) as (A & (ext & B) & C). split; [exact A|].
    assert (F1 : finfo s1 = finfo s ++ [{| iname := n; ipname := n; iarity := a; ispecial := false |}]) by reflexivity.
    split; [eexists; rewrite B, F1, <- app_assoc; reflexivity|]. constructor.
    + split; [lia|]. cbn. rewrite B, F1. unfold fcount. rewrite <- app_assoc, nth_error_app2, Nat.sub_diag by auto. cbn. eexists; split; reflexivity.
    + assert (LE : fcount s <= fcount s1) by (unfold fcount; rewrite F1, app_length; lia). clear - C LE.
      induction C as [|d id ds ids (X & Y) _ IH]; constructor; [split; [lia|exact Y]|exact IH].
Qed.
Theorem C44_let_scope_partial : forall l s cs ds s1 ids,
  inserts empty_sig l = (s, cs) -> lets s ds = (s1, ids) -> Forall (fun d => quoted (fst d) = false) ds -> NoDup (map fst ds) ->
  exists s2 sc, enter_scope s1 ids = Some (s2, sc) /\
    (forall i n a c, nth_error ds i = Some (n, a) -> nth_error ids i = Some c -> sig_find s2 n = c /\ ~ In c cs) /\
    forall body s3 cs', inserts s2 body = (s3, cs') ->
      (forall n, In n (map fst ds) -> sig_find s3 n = sig_find s2 n) /\
      (forall n, In (raw n) (map fst ds) -> sig_find (exit_scope s3 sc) n = sig_find s n) /\
      (forall n, ~ In (raw n) (map fst ds) -> sig_find (exit_scope s3 sc) n = sig_find s3 n).
Proof.
  intros l s cs ds s1 ids H L Q ND. destruct (lets_spec _ _ _ _ L) as (FI & _ & F2).
  assert (CI := inserts_codes _ _ _ _ codes_empty room_empty H). destruct CI as (CI & CC).
  assert (PO : positive s1). { intros k E. rewrite FI in E. apply CI in E. lia. }
  assert (IDX : idx_nodup s1). { unfold idx_nodup. rewrite FI. apply (inserts_nodup l empty_sig s cs); [constructor|auto]. }
  assert (NM : forall id, In id ids -> exists d f, In d ds /\ cell s1 id = Some f /\ iname f = fst d).
  { clear - F2. induction F2 as [|d id ds ids (A & f & B & C) _ IH]; intros i [].
    - subst. exists d, f. split; [now left|auto].
    - destruct (IH i H) as (d' & f' & X & Y). exists d', f'. split; [now right|auto]. }
  assert (NM2 : forall n, In n (map fst ds) -> exists id f, In id ids /\ cell s1 id = Some f /\ iname f = n).
  { clear - F2. induction F2 as [|d id ds ids (A & f & B & C) _ IH]; intros n []; cbn.
    - subst. exists id, f. auto.
    - destruct (IH n H) as (i & g & X & Y). exists i, g. auto. }
  assert (QQ : forall id f, In id ids -> cell s1 id = Some f -> quoted (iname f) = false).
  { intros id f I C. destruct (NM id I) as (d & g & D & C' & E). assert (f = g) by congruence. subst. rewrite E. rewrite Forall_forall in Q. apply (Q d D). }
  destruct (enter_scope s1 ids) as [[s2 sc]|] eqn:EN.
  2:{ exfalso. eapply (enter_total ids s1 []); eauto. intros id I. destruct (NM id I) as (d & g & D & C' & E). exists g. split; [auto|eauto]. }
  exists s2, sc. split; [reflexivity|].
  destruct (enter_spec ids s1 [] s2 sc QQ PO EN) as (new & N1 & N2 & N3 & N4 & N5 & N6 & N7 & N8 & N9 & N10).
  rewrite app_nil_r in N1. subst new.
  assert (KEYS : forall k, In k (names sc) <-> In k (map fst ds)).
  { intro k. split; intro X.
    - destruct (N6 k X) as (id & f & A & B & <-). destruct (NM id A) as (d & g & D & C' & E). assert (f = g) by congruence. subst. rewrite E. now apply in_map.
    - destruct (NM2 k X) as (id & f & A & B & <-). eapply N7; eauto. }
  assert (QD : forall n, In n (map fst ds) -> quoted n = false).
  { intros n I. apply in_map_iff in I. destruct I as (d & <- & I). rewrite Forall_forall in Q. auto. }
  split.
  - intros i n a c Di Ci.
    assert (SPL : exists l1 l2 d1 d2, ids = l1 ++ c :: l2 /\ ds = d1 ++ (n, a) :: d2 /\ Forall2 (fun d id => fcount s < id /\ exists f, cell s1 id = Some f /\ iname f = fst d) d2 l2).
    { clear - F2 Di Ci. revert i Di Ci. induction F2 as [|d id ds ids (A & f & B & C) T IH]; intros [|i] Di Ci; try discriminate; cbn in Di, Ci.
      - injection Di as ->. injection Ci as ->. exists [], ids, [], ds. auto.
      - destruct (IH i Di Ci) as (l1 & l2 & d1 & d2 & -> & -> & X). exists (id :: l1), l2, (d :: d1), d2. auto. }
    destruct SPL as (l1 & l2 & d1 & d2 & -> & -> & SP).
    assert (CE : fcount s < c /\ exists f, cell s1 c = Some f /\ iname f = n).
    { clear - F2 Di Ci. revert i Di Ci. generalize dependent (l1 ++ c :: l2). generalize dependent (d1 ++ (n, a) :: d2). intros DS IDS F2.
      induction F2 as [|d id ds ids (A & f & B & C) T IH]; intros [|i] Di Ci; try discriminate; cbn in Di, Ci.
      - injection Di as ->. injection Ci as ->. split; [auto|]. exists f. auto.
      - eapply IH; eauto. }
    destruct CE as (GT & f & CE & NE). subst n. split.
    + rewrite find_lookup by (apply QD; rewrite map_app; apply in_or_app; right; now left).
      rewrite (N8 l1 c l2 f eq_refl CE); [reflexivity|]. intros j g J CJ.
      assert (INJ : In (iname g) (map fst d2)).
      { clear - SP J CJ. induction SP as [|d id ds ids (A & f & B & C) T IH]; [destruct J|]. destruct J as [<- | J]; cbn; [left; congruence|auto]. }
      intro E. rewrite map_app in ND. cbn in ND. apply NoDup_remove_2 in ND. apply ND. apply in_or_app. right. now rewrite <- E.
    + intro I. rewrite Forall_forall in CC. apply CC in I. lia.
  - intros body s3 cs' B. assert (G := inserts_grows _ _ _ _ B).
    assert (KEEP : forall k, In k (names sc) -> lookup k (findex s3) = lookup k (findex s2)).
    { intros k I. destruct (lookup k (findex s2)) as [c|] eqn:E; [apply (proj1 G _ _ E)|]. exfalso. apply (N9 k I E). }
    destruct (N10 s3) as (_ & EX); [exact (inserts_nodup body s2 s3 cs' (N4 IDX) B)|exact KEEP|].
    split; [|split].
    + intros n I. rewrite !find_lookup by auto. now rewrite (KEEP n (proj2 (KEYS n) I)).
    + intros n I. unfold sig_find. rewrite EX. destruct (in_dec string_dec (raw n) (names sc)) as [J | J]; [now rewrite FI|]. exfalso. apply J. now apply KEYS.
    + intros n I. unfold sig_find. rewrite EX. destruct (in_dec string_dec (raw n) (names sc)) as [J | J]; [|reflexivity]. exfalso. apply I. now apply KEYS.
Qed.
(** [f] is known, [h] is not; the body uses both and a new symbol *)
Example C44_let_case :
  let '(s1, ids) := lets (fst (inserts empty_sig (firstn 2 l0))) [("f"%string, 1%Z); ("h"%string, 0%Z)] in
  match enter_scope s1 ids with
  | None => False
  | Some (s2, sc) =>
      let '(s3, cs) := inserts s2 [("f"%string, 1%Z, false); ("h"%string, 0%Z, false); ("k"%string, 0%Z, false)] in
      let s4 := exit_scope s3 sc in
      cs = [3; 4; 5] /\ sig_find s4 "f" = 2 /\ sig_find s4 "h" = 0 /\ sig_find s4 "k" = 5
  end.
Proof. vm_compute. auto. Qed.

(** ** Violations *)
(** A quoted name that is known with another arity gets a new code at every occurrence *)
Theorem C44_quoted_arity_refuted : exists l s cs, inserts empty_sig l = (s, cs) /\ Forall (fun o => plain (fst (fst o))) l /\
  exists i j o c d, i < j /\ nth_error l i = Some o /\ nth_error l j = Some o /\ nth_error cs i = Some c /\ nth_error cs j = Some d /\ c <> d.
Proof.
  exists [("'f'"%string, 1%Z, false); ("'f'"%string, 2%Z, false); ("'f'"%string, 2%Z, false)]. eexists _, _. split; [vm_compute; reflexivity|]. split.
  - assert (P : plain "'f'") by (exists true, "f"%string; split; [reflexivity|split; [|cbn]; discriminate]). repeat constructor; exact P.
  - exists 1, 2. do 3 eexists. repeat split; try reflexivity; auto; discriminate.
Qed.
(** The internal name of a second arity can be written in the input *)
Theorem C44_arityfix_refuted : exists l s cs n a m b, inserts empty_sig l = (s, cs) /\ one_arity (map fst l) /\ Forall (fun o => quoted (raw (fst (fst o))) = false) l /\
  raw n <> raw m /\ exists i j c, nth_error l i = Some (n, a, false) /\ nth_error l j = Some (m, b, false) /\ nth_error cs i = Some c /\ nth_error cs j = Some c.
Proof.
  exists [("f"%string, 1%Z, false); ("f"%string, 2%Z, false); ("'f_ARITYFIX2 '"%string, 2%Z, false)]. eexists _, _. exists "f"%string, 2%Z, "'f_ARITYFIX2 '"%string, 2%Z.
  split; [vm_compute; reflexivity|]. split; [|split; [|split]].
  - apply one_arityb_ok. reflexivity.
  - repeat constructor.
  - discriminate.
  - exists 1, 2. eexists. repeat split; reflexivity.
Qed.
(** A number and a quoted atom that looks like one are the same symbol *)
Theorem C44_quoted_number_refuted : exists s c, inserts empty_sig [("1"%string, 0%Z, false); ("'1'"%string, 0%Z, false)] = (s, [c; c]).
Proof. eexists _, _. vm_compute. reflexivity. Qed.
(** Declaring a quoted name that is known in a $let dereferences a null pointer *)
Theorem C44_let_quoted_refuted : exists l s cs d s1 ids, inserts empty_sig l = (s, cs) /\ lets s [d] = (s1, ids) /\ plain (fst d) /\ enter_scope s1 ids = None.
Proof.
  exists [("f"%string, 1%Z, false)]. eexists _, _. exists ("'f'"%string, 1%Z). eexists _, _.
  split; [vm_compute; reflexivity|]. split; [vm_compute; reflexivity|]. split; [exists true, "f"%string; split; [reflexivity|split; [|cbn]; discriminate]|reflexivity].
Qed.

Print Assumptions C44_symbols_partial.
Print Assumptions C44_array.
Print Assumptions C44_fresh.
Print Assumptions C44_backtrack_partial.
Print Assumptions C44_let_scope_partial.
Print Assumptions C44_quoted_arity_refuted.
Print Assumptions C44_arityfix_refuted.
Print Assumptions C44_quoted_number_refuted.
Print Assumptions C44_let_quoted_refuted.
