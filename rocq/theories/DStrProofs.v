(** Proofs about dynamic strings. *)
From Verif Require Queue.
From Verif Require Import Mem DStr.

Lemma mwrite_app {A} (a b : mem A) x v : mwrite (a ++ x :: b) (length a) v = Some (a ++ v :: b).
Proof.
  unfold mwrite. rewrite app_length. simpl length. destruct (Nat.ltb_spec (length a) (length a + S (length b))); [|lia]. f_equal.
  rewrite firstn_app, Nat.sub_diag, firstn_all, firstn_O, app_nil_r. f_equal. f_equal.
  rewrite skipn_app. replace (S (length a) - length a) with 1 by lia. rewrite skipn_all2 by lia. reflexivity.
Qed.
Lemma put_chars_app : forall s (a b : block), length s <= length b -> put_chars (a ++ b) (length a) s = Some (a ++ map Some s ++ skipn (length s) b).
Proof.
  induction s as [|c s IH]; intros a b L; [reflexivity|]. destruct b as [|x b]; [simpl in L; lia|]. cbn [put_chars]. rewrite mwrite_app.
  pose proof (IH (a ++ [Some c]) b) as H. rewrite app_length in H. simpl length in H. rewrite Nat.add_1_r in H. rewrite <- app_assoc in H. cbn [app] in H.
  rewrite H by (simpl in L; lia). rewrite <- app_assoc. reflexivity.
Qed.
Lemma cells_str_ok : forall l rest, cells_str (map Some (l ++ [0]) ++ rest) = Some (before_nul l).
Proof. induction l as [|[|c] l IH]; intros rest; auto. cbn [app map cells_str before_nul]. rewrite IH. reflexivity. Qed.
Lemma before_nul_id l : no_nul l -> before_nul l = l.
Proof.
  induction l as [|[|c] l IH]; intros N; auto.
  - elim N. simpl. auto.
  - cbn [before_nul]. f_equal. apply IH. intros H. apply N. simpl. auto.
Qed.
Lemma before_nul_no l : no_nul (before_nul l).
Proof. induction l as [|[|c] l IH]; cbn [before_nul]; intros H; try destruct H as [H|H]; auto; discriminate. Qed.
Lemma before_nul_len l : length (before_nul l) <= length l.
Proof. induction l as [|[|c] l IH]; simpl; lia. Qed.

(** the state represents the text l *)
Definition rep (d : dstr) (l : list char) : Prop :=
  dlen d = length l /\
  match dbuf d with
  | None => dmem d = 0 /\ l = []
  | Some m => length m = dmem d /\ exists rest, m = map Some (l ++ [0]) ++ rest
  end.

Lemma rep_len d l m : rep d l -> dbuf d = Some m -> length l < dmem d.
Proof. intros [_ R] E. rewrite E in R. destruct R as [L [r ->]]. rewrite app_length, map_length, app_length in L. simpl in L. lia. Qed.
Lemma alloc_rep : rep dstr_alloc [].
Proof. split; simpl; auto. Qed.

Lemma grow_ok : forall fuel need n, need + 1 <= n + (fuel - 1) * DSTRGROW -> 0 < fuel -> exists n', grow fuel need n = Some n' /\ need < n' /\ n <= n' /\ (n' = n \/ n < n').
Proof.
  induction fuel as [|f IH]; intros need n H L; [lia|]. cbn [grow]. destruct (Nat.leb_spec n need) as [A|A].
  - destruct f as [|f]; [simpl in H; lia|]. destruct (IH need (n + DSTRGROW)) as [n' [E [X [Y Z]]]]; [unfold DSTRGROW in *; lia|lia|]. exists n'. split; auto. unfold DSTRGROW in *. lia.
  - exists n. split; auto.
Qed.
(** enlarging the block *)
Lemma realloc_ok d l n : rep d l -> length l < n -> length (realloc (dbuf d) n) = n /\
  match dbuf d with None => True | Some m => exists rest, realloc (Some m) n = map Some (l ++ [0]) ++ rest end /\
  exists rest, realloc (dbuf d) n = map Some l ++ rest.
Proof.
  intros [_ R] L. unfold realloc. destruct (dbuf d) as [m|].
  - destruct R as [_ [r E]]. assert (E2 : firstn n m = map Some (l ++ [0]) ++ firstn (n - length (map (@Some char) (l ++ [0]))) r).
    { rewrite E, firstn_app. f_equal. apply firstn_all2. rewrite map_length, app_length. simpl. lia. }
    split; [|split].
    + rewrite app_length, firstn_length, repeat_length. lia.
    + rewrite E2. rewrite <- app_assoc. eauto.
    + rewrite E2. rewrite map_app. rewrite <- !app_assoc. eauto.
  - destruct R as [_ ->]. rewrite firstn_nil. simpl. rewrite repeat_length. split; [lia|]. split; eauto.
Qed.
Lemma repl_last (l : list char) (m rest : block) : m = map Some l ++ rest -> length l < length m -> exists x r, m = map Some l ++ x :: r /\ rest = x :: r.
Proof. intros E L. destruct rest as [|x r]; [rewrite E, app_length, map_length in L; simpl in L; lia|]. eauto. Qed.

Lemma append_str_ok d l s : rep d l -> exists d', append_str d s = Some d' /\ rep d' (l ++ s).
Proof.
  intros R. pose proof R as [Hl Hb]. unfold append_str.
  destruct (grow_ok (S (S (dlen d + length s))) (dlen d + length s) (dmem d)) as [n' [E [X [Y Z]]]]; [unfold DSTRGROW; lia|lia|]. rewrite E.
  assert (P : exists m, (if dmem d <? n' then option_map (fun m => (Some m, n')) (mwrite (realloc (dbuf d) n') (dlen d) (Some 0)) else Some (dbuf d, dmem d)) = Some (Some m, n') /\
             length m = n' /\ exists rest, m = map Some (l ++ [0]) ++ rest).
  { destruct (Nat.ltb_spec (dmem d) n') as [A|A].
    - destruct (realloc_ok d l n' R) as [L1 [_ [rest E1]]]; [lia|]. destruct (repl_last l _ _ E1) as [x [r [E2 _]]]; [lia|].
      rewrite E2, Hl. rewrite <- (map_length (@Some char) l). rewrite mwrite_app. eexists. split; [reflexivity|]. split.
      + rewrite E2 in L1. rewrite app_length in *. simpl in *. auto.
      + exists r. rewrite map_app, <- app_assoc. reflexivity.
    - assert (n' = dmem d) by lia. subst n'. destruct (dbuf d) as [m|]; [|lia]. exists m. destruct Hb as [L H]. auto. }
  destruct P as [m [-> [Lm [rest Em]]]]. unfold str_at. 
  assert (E3 : skipn (dlen d) m = Some 0 :: rest).
  { rewrite Em, Hl, map_app, <- app_assoc. rewrite <- (map_length (@Some char) l). rewrite skipn_app, Nat.sub_diag, skipn_all. reflexivity. }
  rewrite E3. cbn [cells_str length]. rewrite Nat.add_0_r.
  assert (E4 : m = map Some l ++ Some 0 :: rest) by (rewrite Em, map_app, <- app_assoc; reflexivity).
  rewrite E4, Hl. rewrite <- (map_length (@Some char) l). rewrite put_chars_app.
  - eexists. split; [reflexivity|]. split; cbn [dlen dbuf dmem]; [rewrite map_length, app_length; auto|].
    rewrite E4 in Lm. rewrite app_length, map_length in Lm. simpl in Lm. split.
    + rewrite !app_length, !map_length, skipn_length. rewrite app_length. simpl length. lia.
    + eexists. rewrite map_app. rewrite !map_app. rewrite <- !app_assoc. reflexivity.
  - rewrite E4 in Lm. rewrite app_length, map_length in Lm. simpl in Lm. rewrite app_length. simpl. lia.
Qed.

Lemma append_char_ok d l c : rep d l -> exists d', append_char d c = Some d' /\ rep d' (l ++ [c]).
Proof.
  intros R. pose proof R as [Hl Hb]. unfold append_char.
  assert (P : exists m cap, (if dmem d <=? dlen d + 1 then (Some (realloc (dbuf d) (dlen d + DSTRGROW)), dlen d + DSTRGROW) else (dbuf d, dmem d)) = (Some m, cap) /\
             length m = cap /\ length l + 1 < cap /\ exists rest, m = map Some l ++ rest).
  { destruct (Nat.leb_spec (dmem d) (dlen d + 1)) as [A|A].
    - destruct (realloc_ok d l (dlen d + DSTRGROW) R) as [L1 [_ E1]]; [unfold DSTRGROW; lia|]. eexists. eexists. split; [reflexivity|]. split; auto. split; auto. unfold DSTRGROW. lia.
    - destruct (dbuf d) as [m|]; [|lia]. destruct Hb as [L [rest H]]. exists m, (dmem d). split; auto. split; auto. split; [lia|]. rewrite map_app, <- app_assoc in H. eauto. }
  destruct P as [m [cap [-> [Lm [Lc [rest Em]]]]]]. assert (Lr : length m = length l + length rest) by (rewrite Em, app_length, map_length; auto).
  destruct rest as [|x [|y r]]; try (simpl in Lr; lia). rewrite Em, Hl. rewrite <- (map_length (@Some char) l). rewrite mwrite_app.
  replace (map Some l ++ Some c :: y :: r) with ((map Some l ++ [Some c]) ++ y :: r) by (rewrite <- app_assoc; reflexivity).
  replace (length (map (@Some char) l) + 1) with (length (map Some l ++ [Some c])) by (rewrite app_length; auto). rewrite mwrite_app.
  eexists. split; [reflexivity|]. split; cbn [dlen dbuf dmem].
  - rewrite !app_length, map_length. auto.
  - split.
    + rewrite !app_length, map_length. simpl in *. lia.
    + exists r. rewrite !map_app. simpl. rewrite <- !app_assoc. reflexivity.
Qed.
Lemma append_buffer_ok : forall s d l, rep d l -> exists d', append_buffer d s = Some d' /\ rep d' (l ++ s).
Proof.
  induction s as [|c s IH]; intros d l R; cbn [append_buffer].
  - exists d. rewrite app_nil_r. auto.
  - destruct (append_char_ok d l c R) as [d1 [E1 R1]]. rewrite E1. destruct (IH d1 _ R1) as [d2 [E2 R2]]. exists d2. rewrite <- app_assoc in R2. auto.
Qed.
Lemma append_rest_ok sep : forall a d l, rep d l -> exists d', append_rest d sep a = Some d' /\ rep d' (l ++ concat (map (fun s => sep ++ s) a)).
Proof.
  induction a as [|s a IH]; intros d l R; cbn [append_rest].
  - exists d. simpl. rewrite app_nil_r. auto.
  - destruct (append_str_ok d l sep R) as [d1 [E1 R1]]. rewrite E1. destruct (append_str_ok d1 _ s R1) as [d2 [E2 R2]]. rewrite E2.
    destruct (IH d2 _ R2) as [d3 [E3 R3]]. exists d3. split; auto. simpl. rewrite <- !app_assoc in R3. rewrite <- app_assoc. auto.
Qed.
Lemma join_concat sep : forall a s, join sep (s :: a) = s ++ concat (map (fun s => sep ++ s) a).
Proof.
  induction a as [|t a IH]; intros s; [simpl; rewrite app_nil_r; auto|]. change (join sep (s :: t :: a)) with (s ++ sep ++ join sep (t :: a)).
  rewrite IH. simpl. rewrite <- !app_assoc. reflexivity.
Qed.
Lemma append_array_ok a sep d l : rep d l -> exists d', append_array d a sep = Some d' /\ rep d' (l ++ join sep a).
Proof.
  intros R. destruct a as [|s a]; cbn [append_array].
  - exists d. simpl. rewrite app_nil_r. auto.
  - destruct (append_str_ok d l s R) as [d1 [E1 R1]]. rewrite E1. destruct (append_rest_ok sep a d1 _ R1) as [d2 [E2 R2]]. exists d2. rewrite <- app_assoc in R2. rewrite join_concat. auto.
Qed.

Lemma list_last (l : list char) : l <> [] -> exists a c, l = a ++ [c] /\ removelast l = a /\ last l 0 = c.
Proof.
  intros N. destruct (exists_last N) as [a [c ->]]. exists a, c. split; auto. split; [apply removelast_last|apply last_last].
Qed.
Lemma map_nonnil (l : list char) : 0 < length l -> l <> [].
Proof. destruct l; simpl; [lia|discriminate]. Qed.

Lemma read_last m a c rest : m = map Some ((a ++ [c]) ++ [0]) ++ rest -> mread m (length (a ++ [c]) - 1) = Some c /\
  mwrite m (length (a ++ [c]) - 1) (Some 0) = Some (map Some (a ++ [0]) ++ Some 0 :: rest).
Proof.
  intros E. assert (E2 : m = map Some a ++ Some c :: Some 0 :: rest) by (rewrite E, !map_app; simpl; rewrite <- !app_assoc; reflexivity).
  assert (X : length (a ++ [c]) - 1 = length (map (@Some char) a)) by (rewrite map_length, app_length; simpl; lia). rewrite X. split.
  - apply mread_nth. rewrite E2. rewrite nth_error_app2 by apply le_n. rewrite Nat.sub_diag. reflexivity.
  - rewrite E2, mwrite_app. rewrite map_app, <- app_assoc. reflexivity.
Qed.

Lemma delete_last_ok d l : rep d l -> exists d', delete_last d = Some (last l 0, d') /\ rep d' (removelast l).
Proof.
  intros R. pose proof R as [Hl Hb]. unfold delete_last. rewrite Hl. destruct (Nat.ltb_spec 0 (length l)) as [A|A].
  - destruct (list_last l (map_nonnil l A)) as [a [c [El [-> ->]]]]. destruct (dbuf d) as [m|]; [|destruct Hb as [_ ->]; simpl in A; lia]. destruct Hb as [L [rest Em]].
    rewrite El in Em. destruct (read_last m a c rest Em) as [E1 E2]. rewrite El, E1, E2. eexists. split; [reflexivity|]. split; cbn [dlen dbuf dmem].
    + rewrite app_length. simpl. lia.
    + split; [|eauto]. rewrite <- L, Em. rewrite !app_length, !map_length, !app_length. simpl. lia.
  - destruct l; [|simpl in A; lia]. exists d. auto.
Qed.
Lemma last_char_ok d l : rep d l -> last_char d = Some (last l 0).
Proof.
  intros [Hl Hb]. unfold last_char. rewrite Hl. destruct (Nat.eqb_spec (length l) 0) as [A|A]; [destruct l; [auto|discriminate]|].
  destruct (list_last l (map_nonnil l ltac:(lia))) as [a [c [El [_ ->]]]]. destruct (dbuf d) as [m|]; [|destruct Hb as [_ ->]; simpl in A; lia]. destruct Hb as [L [rest Em]].
  rewrite El in Em |- *. apply (read_last m a c rest Em).
Qed.
Lemma view_ok d l : rep d l -> view d = Some (before_nul l).
Proof. intros [Hl Hb]. unfold view. destruct (dbuf d) as [m|]; [|destruct Hb as [_ ->]; auto]. destruct Hb as [L [rest ->]]. unfold str_at. simpl skipn. apply cells_str_ok. Qed.
Lemma skipn_rep l rest i : i <= length l -> skipn i (map Some (l ++ [0]) ++ rest) = map (@Some char) (skipn i l ++ [0]) ++ rest.
Proof.
  intros L. rewrite skipn_app. rewrite map_length, app_length. simpl length. replace (i - (length l + 1)) with 0 by lia. rewrite skipn_O. f_equal.
  rewrite skipn_map. rewrite skipn_app. replace (i - length l) with 0 by lia. reflexivity.
Qed.
Lemma address_ok d l i : rep d l -> (length l < i -> address d i = Some None) /\ (i <= length l -> l <> [] -> address d i = Some (Some (before_nul (skipn i l)))).
Proof.
  intros [Hl Hb]. unfold address. rewrite Hl. destruct (Nat.ltb_spec (length l) i) as [A|A]; split; intros H; try lia; auto. intros N.
  destruct (dbuf d) as [m|]; [|destruct Hb as [_ ->]; tauto]. destruct Hb as [L [rest ->]]. unfold str_at. rewrite skipn_rep by auto. rewrite cells_str_ok. reflexivity.
Qed.
Lemma put_fresh n s : length s <= n -> put_chars (malloc n) 0 s = Some (map Some s ++ malloc (n - length s)).
Proof.
  intros L. assert (E : @malloc char n = malloc (length s) ++ malloc (n - length s)) by (unfold malloc; rewrite <- repeat_app; f_equal; lia).
  pose proof (put_chars_app s [] (malloc n)) as H. cbn [app length] in H. rewrite malloc_len in H. rewrite H by auto. f_equal. f_equal.
  rewrite E, skipn_app, malloc_len, Nat.sub_diag. rewrite (skipn_all2 (malloc (length s))) by (rewrite malloc_len; lia). reflexivity.
Qed.
Lemma copy_ok d l : rep d l -> copy d = Some (before_nul l).
Proof.
  intros R. pose proof (view_ok d l R) as V. destruct R as [Hl Hb]. unfold copy, view in *. destruct (dbuf d) as [m|]; [|auto]. rewrite V.
  rewrite put_fresh by (rewrite app_length; simpl; pose proof (before_nul_len l); lia). unfold str_at. simpl skipn. rewrite cells_str_ok.
  f_equal. apply before_nul_id. apply before_nul_no.
Qed.
Lemma strncpy_ok : forall n l rest, n <= length l -> strncpy (map Some l ++ rest) n = Some (before_nul (firstn n l) ++ repeat 0 (n - length (before_nul (firstn n l)))).
Proof.
  induction n as [|n IH]; intros l rest L; [reflexivity|]. destruct l as [|c l]; [simpl in L; lia|]. cbn [map app strncpy firstn]. destruct c as [|c]; cbn [before_nul]; [reflexivity|].
  rewrite IH by (simpl in L; lia). reflexivity.
Qed.
Lemma before_nul_pad l n : before_nul (l ++ repeat 0 n) = before_nul l.
Proof. induction l as [|[|c] l IH]; simpl; auto; [destruct n; auto|]. f_equal. auto. Qed.
Lemma firstn_removelast (l : list char) : firstn (length l - 1) l = removelast l.
Proof.
  destruct l as [|c l]; auto. destruct (list_last (c :: l)) as [a [x [-> [-> _]]]]; [discriminate|]. rewrite app_length. simpl. rewrite firstn_app.
  replace (length a + 1 - 1) with (length a) by lia. rewrite Nat.sub_diag, firstn_all. simpl. apply app_nil_r.
Qed.
Lemma copy_core_ok d l : rep d l -> 2 <= length l -> copy_core d = Some (before_nul (removelast (tl l))).
Proof.
  intros R L. pose proof R as [Hl Hb]. unfold copy_core. rewrite Hl. destruct (Nat.ltb_spec (length l) 2); [lia|].
  destruct (dbuf d) as [m|]; [|destruct Hb as [_ ->]; simpl in L; lia]. destruct Hb as [Lm [rest ->]]. destruct l as [|c0 l]; [simpl in L; lia|]. cbn [tl length] in *.
  change (skipn 1 (map Some ((c0 :: l) ++ [0]) ++ rest)) with (map (@Some char) (l ++ [0]) ++ rest).
  replace (S (length l) - 2) with (length l - 1) by lia. rewrite strncpy_ok by (rewrite app_length; simpl; lia).
  assert (E : firstn (length l - 1) (l ++ [0]) = removelast l).
  { rewrite firstn_app. replace (length l - 1 - length l) with 0 by lia. simpl. rewrite app_nil_r. apply firstn_removelast. }
  rewrite E. set (t := before_nul (removelast l) ++ repeat 0 (length l - 1 - length (before_nul (removelast l)))).
  assert (Lt : length t = length l - 1).
  { unfold t. rewrite app_length, repeat_length. pose proof (before_nul_len (removelast l)). rewrite <- E in H0 at 2. rewrite firstn_length, app_length in H0. simpl in H0. lia. }
  rewrite put_fresh by (rewrite Lt; lia). replace (S (length l) - 1 - length t) with 1 by lia. change (malloc 1) with [@None char].
  replace (length l - 1) with (length (map (@Some char) t)) by (rewrite map_length; auto). rewrite mwrite_app.
  unfold str_at. simpl skipn. replace (map Some t ++ [Some 0]) with (map Some (t ++ [0]) ++ []) by (rewrite app_nil_r, map_app; reflexivity). rewrite cells_str_ok.
  unfold t. rewrite before_nul_pad. rewrite (before_nul_id (before_nul (removelast l))) by apply before_nul_no. reflexivity.
Qed.
Lemma reset_ok d l : rep d l -> exists d', reset d = Some d' /\ rep d' [].
Proof.
  intros R. pose proof R as [Hl Hb]. unfold reset. destruct (dbuf d) as [m|] eqn:Eb.
  - destruct Hb as [L [rest Em]]. destruct m as [|x m]; [destruct l; discriminate|].
    pose proof (mwrite_app [] m x (Some 0)) as H. simpl in H. rewrite H. eexists. split; [reflexivity|]. split; auto. cbn [dbuf dmem]. split; auto. exists m. reflexivity.
  - exists d. split; auto. destruct Hb as [H ->]. split; auto. rewrite Eb. auto.
Qed.
Lemma set_ok d l s : rep d l -> exists d', set_str d s = Some d' /\ rep d' s.
Proof. intros R. unfold set_str. destruct (reset_ok d l R) as [d1 [-> R1]]. apply (append_str_ok d1 [] s R1). Qed.
Lemma minimize_ok d l : rep d l -> rep (minimize d) l.
Proof.
  intros R. pose proof R as [Hl Hb]. unfold minimize. destruct (dbuf d) as [m|] eqn:Eb; [|auto]. destruct (Nat.eqb_spec (dlen d) 0) as [A|A].
  - split; cbn [dlen dbuf dmem]; auto. split; auto. destruct l; [auto|simpl in *; lia].
  - destruct (realloc_ok d l (dlen d + 1) R) as [L1 [H _]]; [lia|]. rewrite Eb in H, L1. split; cbn [dlen dbuf dmem]; auto.
Qed.

Lemma step_ok d l o : rep d l -> forall a l', text_step l o = Some (a, l') -> exists d', dstr_step d o = Some (a, d') /\ rep d' l'.
Proof.
  intros R a l' E. destruct o; cbn [text_step dstr_step] in *.
  - injection E as <- <-. destruct (append_str_ok d l s R) as [d' [-> R']]. simpl. eauto.
  - injection E as <- <-. destruct (append_char_ok d l c R) as [d' [-> R']]. simpl. eauto.
  - injection E as <- <-. destruct (append_buffer_ok l0 d l R) as [d' [-> R']]. simpl. eauto.
  - injection E as <- <-. destruct (append_array_ok l0 sep d l R) as [d' [-> R']]. simpl. eauto.
  - injection E as <- <-. destruct (delete_last_ok d l R) as [d' [-> R']]. simpl. eauto.
  - injection E as <- <-. rewrite (view_ok d l R). simpl. eauto.
  - injection E as <- <-. exists d. split; auto. destruct R as [-> R]. auto.
  - destruct (address_ok d l i R) as [A1 A2]. destruct (Nat.ltb_spec (length l) i) as [L|L].
    + injection E as <- <-. rewrite A1 by auto. simpl. eauto.
    + destruct l as [|c l]; [discriminate|]. injection E as <- <-. rewrite A2 by (auto; discriminate). simpl. eauto.
  - injection E as <- <-. rewrite (last_char_ok d l R). simpl. eauto.
  - injection E as <- <-. rewrite (copy_ok d l R). simpl. eauto.
  - destruct (Nat.ltb_spec (length l) 2) as [L|L]; [discriminate|]. injection E as <- <-. rewrite (copy_core_ok d l R L). simpl. eauto.
  - injection E as <- <-. destruct (set_ok d l s R) as [d' [-> R']]. simpl. eauto.
  - injection E as <- <-. destruct (reset_ok d l R) as [d' [-> R']]. simpl. eauto.
  - injection E as <- <-. exists (minimize d). split; auto. apply minimize_ok. auto.
Qed.
Lemma run_ok : forall ops d l answers l', rep d l -> Queue.run text_step l ops = Some (answers, l') -> exists d', Queue.run dstr_step d ops = Some (answers, d') /\ rep d' l'.
Proof.
  induction ops as [|o ops IH]; intros d l answers l' R E; cbn [Queue.run] in *.
  - injection E as <- <-. eauto.
  - destruct (text_step l o) as [[a l1]|] eqn:E1; [|discriminate]. destruct (Queue.run text_step l1 ops) as [[bs l2]|] eqn:E2; [|discriminate]. injection E as <- <-.
    destruct (step_ok d l o R a l1 E1) as [d1 [-> R1]]. destruct (IH d1 l1 bs l2 R1 E2) as [d2 [-> R2]]. eauto.
Qed.

(** ** Reading lines *)
Lemma fgets_ok : forall n inp, let (l, r) := fgets n inp in inp = l ++ r /\ length l <= n /\ (0 < n -> inp <> [] -> l <> []) /\
  (In 10 l -> last l 0 = 10) /\ (forall a b, l = a ++ 10 :: b -> b = []) /\ (length l < n -> In 10 l \/ r = []).
Proof.
  induction n as [|n IH]; intros inp; cbn [fgets].
  - repeat split; auto; try lia; [intros []|]. intros [|? ?] b; discriminate.
  - destruct inp as [|c inp]; [repeat split; auto; simpl; try lia; try tauto; intros [|? ?] b; discriminate|]. destruct (Nat.eqb_spec c 10) as [->|N].
    + repeat split; auto; simpl; try lia; try discriminate. intros [|x [|y a]] b E; inversion E; auto.
    + specialize (IH inp). destruct (fgets n inp) as [l r]. destruct IH as [I1 [I2 [I3 [I4 [I5 I6]]]]]. repeat split; simpl.
      * rewrite I1. auto.
      * lia.
      * discriminate.
      * intros [H|H]; [tauto|]. rewrite I4 by auto. destruct l; [destruct H|auto].
      * intros [|x a] b E; inversion E; [tauto|]. eapply I5. eauto.
      * intros H. destruct I6 as [|]; auto. lia.
Qed.
Lemma last_app_ne (l s : list char) : s <> [] -> last (l ++ s) 0 = last s 0.
Proof. intros N. destruct (exists_last N) as [a [c ->]]. rewrite app_assoc, !last_last. auto. Qed.
(** the text of the first line, with its newline if it has one *)
Lemma fgets_loop_ok : forall fuel d l inp, rep d l -> no_nul inp -> length inp < fuel ->
  exists d' out r, fgets_loop fuel d inp = Some (d', r) /\ rep d' (l ++ out) /\ inp = out ++ r /\
    (last l 0 = 10 -> out = []) /\ (last l 0 <> 10 -> (forall a b, out = a ++ 10 :: b -> b = []) /\ (In 10 out \/ r = [])).
Proof.
  induction fuel as [|f IH]; intros d l inp R N L; [lia|]. cbn [fgets_loop]. rewrite (last_char_ok d l R). destruct (Nat.eqb_spec (last l 0) 10) as [E|E].
  - exists d, [], inp. rewrite app_nil_r. split; [reflexivity|]. split; [auto|]. split; [auto|]. split; [auto|]. intros H. elim H. auto.
  - destruct inp as [|c inp].
    { exists d, [], []. rewrite app_nil_r. split; [reflexivity|]. split; [auto|]. split; [auto|]. split; [auto|]. intros _. split; auto. intros [|? ?] b H; discriminate. }
    pose proof (fgets_ok (DSTRGETS_CHUNK - 1) (c :: inp)) as F. destruct (fgets (DSTRGETS_CHUNK - 1) (c :: inp)) as [s r]. destruct F as [I1 [I2 [I3 [I4 [I5 I6]]]]].
    assert (Ns : s <> []) by (apply I3; [unfold DSTRGETS_CHUNK; lia|discriminate]).
    assert (Bs : before_nul s = s) by (apply before_nul_id; intros H; apply N; rewrite I1; apply in_or_app; auto). rewrite Bs.
    destruct (append_str_ok d l s R) as [d1 [-> R1]].
    destruct (IH d1 (l ++ s) r R1) as [d2 [out [r2 [E2 [R2 [J1 [J2 J3]]]]]]].
    { intros H. apply N. rewrite I1. apply in_or_app; auto. }
    { assert (X : length (c :: inp) = length s + length r) by (rewrite I1, app_length; auto). destruct s; [tauto|]. simpl in *. lia. }
    exists d2, (s ++ out), r2. rewrite E2. split; auto. rewrite <- app_assoc in R2. split; auto. split; [rewrite I1, J1, app_assoc; auto|]. split; [tauto|]. intros _.
    rewrite last_app_ne in J2, J3 by auto. destruct (Nat.eq_dec (last s 0) 10) as [Es|Es].
    + rewrite (J2 Es), app_nil_r. split; auto. left. rewrite <- Es. destruct (exists_last Ns) as [a [x ->]]. rewrite last_last. apply in_or_app. simpl. auto.
    + destruct (J3 Es) as [J4 J5]. assert (N10 : ~ In 10 s) by (intros H; apply Es, I4; auto). split.
      * intros a b H. assert (X : exists a', out = a' ++ 10 :: b).
        { clear -H N10. revert a H. induction s as [|x s IHs]; intros a H; [eauto|]. destruct a as [|y a]; simpl in H; inversion H; subst; [elim N10; simpl; auto|]. eapply IHs; eauto. intros Hi. apply N10. simpl. auto. }
        destruct X as [a' X]. eapply J4. eauto.
      * destruct J5; auto. left. apply in_or_app. auto.
Qed.
