(** C31: dynamic strings hold what was appended and stay inside their memory. *)
From Verif Require Queue.
From Verif Require Import Mem DStr DStrProofs.

(** Any history of operations that the text model allows: no access outside the block or to an uninitialised character happens (every
    step has a result), every answer is that of the list of characters, and at the end the block holds exactly the text followed by a NUL,
    the length field is the length of the text and the block is as large as the recorded size. *)
Theorem C31_string_history : forall ops answers text, Forall dop_ok ops -> Queue.run text_step [] ops = Some (answers, text) ->
  exists d, Queue.run dstr_step dstr_alloc ops = Some (answers, d) /\ dlen d = length text /\
    match dbuf d with
    | None => text = []
    | Some m => length m = dmem d /\ length text < dmem d /\ (forall i c, nth_error text i = Some c -> nth_error m i = Some (Some c)) /\ nth_error m (length text) = Some (Some 0)
    end.
Proof.
  intros ops answers text _ E. destruct (run_ok ops dstr_alloc [] answers text alloc_rep E) as [d [E2 R]]. exists d. split; auto. pose proof R as [Hl Hb]. split; auto.
  destruct (dbuf d) as [m|] eqn:Eb; [|tauto]. pose proof (rep_len d text m R Eb) as L. destruct Hb as [Lm [rest Em]]. split; auto. split; auto.
  assert (E4 : m = map Some text ++ Some 0 :: rest) by (rewrite Em, map_app, <- app_assoc; reflexivity). split.
  - intros i c Hi. assert (i < length text) by (apply nth_error_Some; congruence). rewrite E4, nth_error_app1 by (rewrite map_length; auto). rewrite nth_error_map, Hi. reflexivity.
  - rewrite E4, nth_error_app2 by (rewrite map_length; auto). rewrite map_length, Nat.sub_diag. reflexivity.
Qed.

(** Nothing but DStrCopyCore on a string of fewer than two characters and DStrAddress into an empty string is excluded. *)
Theorem C31_always_allowed : forall ops text, (forall o, In o ops -> o <> DCopyCore /\ (forall i, o <> DAddress i)) -> exists r, Queue.run text_step text ops = Some r.
Proof.
  induction ops as [|o ops IH]; intros text H; cbn [Queue.run]; [eauto|]. destruct (H o (or_introl eq_refl)) as [H1 H2].
  assert (X : exists a t, text_step text o = Some (a, t)) by (destruct o; simpl; eauto; [elim (H2 i); auto|tauto]). destruct X as [a [t ->]].
  destruct (IH t) as [[bs y] ->]; [intros x Hx; apply H; simpl; auto|]. eauto.
Qed.

(** Reading a line of a file without NUL characters: the whole first line, of any length, up to and including its newline or the end
    of the file, and nothing more. *)
Theorem C31_read_line : forall ops answers d inp, Forall dop_ok ops -> Queue.run dstr_step dstr_alloc ops = Some (answers, d) ->
  (exists text, Queue.run text_step [] ops = Some (answers, text)) -> no_nul inp -> inp <> [] ->
  exists d' line rest, dstr_fgets d inp = Some (true, d', rest) /\ view d' = Some line /\ inp = line ++ rest /\
    (forall a b, line = a ++ 10 :: b -> b = []) /\ (In 10 line \/ rest = []).
Proof.
  intros ops answers d inp _ Ed [text Et] N Ne. destruct (run_ok ops dstr_alloc [] answers text alloc_rep Et) as [d0 [E0 R]]. rewrite Ed in E0. injection E0 as <-.
  unfold dstr_fgets. destruct (reset_ok d text R) as [d1 [-> R1]]. destruct inp as [|c inp]; [tauto|].
  pose proof (fgets_ok (DSTRGETS_CHUNK - 1) (c :: inp)) as F. destruct (fgets (DSTRGETS_CHUNK - 1) (c :: inp)) as [s r]. destruct F as [I1 [I2 [I3 [I4 [I5 I6]]]]].
  assert (Ns : s <> []) by (apply I3; [unfold DSTRGETS_CHUNK; lia|discriminate]).
  assert (Bs : before_nul s = s) by (apply before_nul_id; intros H; apply N; rewrite I1; apply in_or_app; auto). rewrite Bs.
  destruct (append_str_ok d1 [] s R1) as [d2 [-> R2]]. cbn [app] in R2.
  destruct (fgets_loop_ok (S (length r)) d2 s r R2) as [d3 [out [r2 [-> [R3 [J1 [J2 J3]]]]]]]; [intros H; apply N; rewrite I1; apply in_or_app; auto|lia|].
  exists d3, (s ++ out), r2. split; auto. split.
  { rewrite (view_ok d3 _ R3). f_equal. apply before_nul_id. intros H. apply N. rewrite I1, J1, app_assoc. apply in_or_app. auto. }
  split; [rewrite I1, J1, app_assoc; auto|]. destruct (Nat.eq_dec (last s 0) 10) as [Es|Es].
  - rewrite (J2 Es), app_nil_r. split; auto. left. rewrite <- Es. destruct (exists_last Ns) as [a [x ->]]. rewrite last_last. apply in_or_app. simpl. auto.
  - destruct (J3 Es) as [J4 J5]. assert (N10 : ~ In 10 s) by (intros H; apply Es, I4; auto). split.
    + intros a b H. assert (X : exists a', out = a' ++ 10 :: b).
      { clear -H N10. revert a H. induction s as [|x s IHs]; intros a H; [eauto|]. destruct a as [|y a]; simpl in H; inversion H; subst; [elim N10; simpl; auto|]. eapply IHs; eauto. intros Hi. apply N10. simpl. auto. }
      destruct X as [a' X]. eapply J4. eauto.
    + destruct J5; auto. left. apply in_or_app. auto.
Qed.

(** With a NUL character in the file the rest of the chunk that was read is lost. *)
Theorem C31_read_line_nul_refuted : exists inp d' rest line, dstr_fgets dstr_alloc inp = Some (true, d', rest) /\ view d' = Some line /\ inp <> line ++ rest.
Proof. exists [65; 0; 66; 10]. eexists. eexists. eexists. split; [vm_compute; reflexivity|]. split; [vm_compute; reflexivity|]. discriminate. Qed.

(** A history that crosses growth boundaries, with minimised blocks, NUL characters in a buffer, and long strings. *)
Definition history : list dop :=
  [DAppend (repeat 97 63); DChar 98; DMinimize; DChar 99; DView; DDelLast; DBuffer [1; 0; 2]; DView; DAddress 65; DLen; DAppend (repeat 100 200); DCopy; DLastChar;
   DSet [34; 97; 98; 34]; DCopyCore; DArray [[97]; [98]; [99]] [44; 32]; DView; DReset; DMinimize; DView; DAppend []; DView].
Example history_ok : Forall dop_ok history /\ exists d, option_map fst (Queue.run text_step [] history) = option_map fst (Queue.run dstr_step dstr_alloc history) /\
  Queue.run dstr_step dstr_alloc history <> None /\ nth_error (match Queue.run text_step [] history with Some (a, _) => a | None => [] end) 16 = Some d /\ d = DText [34; 97; 98; 34; 97; 44; 32; 98; 44; 32; 99].
Proof.
  split; [|eexists; split; [vm_compute; reflexivity|]; split; [vm_compute; discriminate|]; split; vm_compute; reflexivity].
  unfold history. repeat (constructor; [try exact I; unfold dop_ok, no_nul; try (intros H; apply repeat_spec in H; discriminate); simpl; try lia|]); [|constructor].
  intros s [<-|[<-|[<-|[]]]]; simpl; lia.
Qed.
Example line_ex : exists d rest, dstr_fgets dstr_alloc (repeat 97 300 ++ [10; 98]) = Some (true, d, rest) /\ view d = Some (repeat 97 300 ++ [10]) /\ rest = [98].
Proof. eexists. eexists. split; [vm_compute; reflexivity|]. split; vm_compute; reflexivity. Qed.

Print Assumptions C31_string_history.
Print Assumptions C31_always_allowed.
Print Assumptions C31_read_line.
Print Assumptions C31_read_line_nul_refuted.
