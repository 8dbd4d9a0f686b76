(** C30: messages over a TCP connection. *)
From Verif Require Import Mem DStr DStrProofs Net NetProofs.

(** Sending: for every string and every behaviour of write() the bytes on the wire are a prefix of the frame of the string; the sender reports
    success only if all of it was sent and an error only if write() failed; it succeeds if every write() takes at least one byte. *)
Theorem C30_send : forall sched str, Z.of_nat (length str) + 4 < 2 ^ 31 ->
  exists bs s, string_send sched str = Some (bs, s) /\ (exists r, frame str = bs ++ r) /\
    (s = NWSuccess -> bs = frame str) /\ (s = NWError -> In OSFail sched) /\ s <> NWConnClosed /\
    ((forall o, In o sched -> exists n, o = OSSome (S n)) -> (length (frame str) <= length sched)%nat -> s = NWSuccess).
Proof.
  intros sched str L. unfold string_send. destruct (pack_ok str L) as [m [-> [R [Em Et]]]].
  assert (N : frame str <> []) by (unfold frame, be4; discriminate).
  destruct (send_ok (frame str) N sched m 0 R Em Et) as [bs [s [E [P [Hs Hl]]]]]; [lia|]. rewrite skipn_O in *. exists bs, s. split; auto. split; auto.
  split; [intros ->; auto|]. split; [intros ->; auto|]. split; [intros ->; auto|]. intros A B. apply Hl; auto; rewrite ?frame_len in *; lia.
Qed.
Example send_case : string_send [OSSome 3; OSSome 0; OSSome 2; OSSome 100] [104; 105]%nat = Some ([0; 0; 0; 6; 104; 105]%nat, NWSuccess).
Proof. vm_compute. reflexivity. Qed.

(** Receiving, partial: any splitting of the length field, and payload reads that fill the buffer or are followed by a NUL already on the stack.
    The string is then exactly the one sent, and what follows on the connection is left for the next message. The receiver never reports an
    error or a closed connection, and it finishes if it is given enough reads. *)
Theorem C30_receive_partial : forall hs ps str rest, sendable str -> str <> [] -> Forall no_fail hs -> Forall lucky ps ->
  exists s res inp' hs' ps', string_recv hs ps (frame str ++ rest) = Some (s, res, inp', hs', ps') /\
    (s = NWSuccess /\ res = Some str /\ inp' = rest \/ s = NWIncomplete) /\
    ((4 <= length hs)%nat -> (length str <= length ps)%nat -> s = NWSuccess).
Proof.
  intros hs ps str rest Ss Ne Fh Fp. destruct (recv_ok str rest Ss Ne hs ps msg_alloc [] (frame str ++ rest) Fh Fp alloc_hdr) as [s [m [inp [hs' [ps' [E [H1 H2]]]]]]].
  { exists (be4 (Z.of_nat (length str) + 4)). split; reflexivity. }
  unfold string_recv. rewrite E. destruct H1 as [[-> [R ->]]| ->].
  - unfold msg_unpack. destruct (address_ok (content m) (frame str) 4 R) as [_ A]. rewrite A; [|rewrite frame_len; lia|unfold frame, be4; discriminate].
    replace (skipn 4 (frame str)) with str by reflexivity. rewrite before_nul_id by apply Ss. do 5 eexists. split; [reflexivity|]. split; auto.
  - do 5 eexists. split; [reflexivity|]. split; auto.
Qed.
Example receive_case : let zero := repeat 0%nat TCP_BUF_SIZE in let dirty := repeat 88%nat TCP_BUF_SIZE in
  option_map (fun r => fst (fst r)) (string_recv [OSSome 1; OSSome 2; OSSome 9] [(OSSome 1, zero); (OSSome 2000, dirty)] (frame [104; 105; 33]%nat ++ [1; 2]%nat))
    = Some (NWSuccess, Some [104; 105; 33]%nat, [1; 2]%nat) /\
  Forall lucky [(OSSome 1, zero); (OSSome 2000, dirty)].
Proof.
  split; [vm_compute; reflexivity|]. repeat constructor; try reflexivity; cbn [fst snd].
  - exists 1%nat. split; auto.
  - exists 2000%nat. split; auto. left. unfold TCP_BUF_SIZE. apply Nat.leb_le. reflexivity.
Qed.

(** End to end, for the same receivers. *)
Theorem C30_end_to_end_partial : forall ws hs ps str bs s, sendable str -> str <> [] -> Forall no_fail hs -> Forall lucky ps ->
  string_send ws str = Some (bs, NWSuccess) -> forall res inp' hs' ps', string_recv hs ps bs = Some (s, res, inp', hs', ps') -> s <> NWIncomplete -> s = NWSuccess /\ res = Some str /\ inp' = [].
Proof.
  intros ws hs ps str bs s Ss Ne Fh Fp E res inp' hs' ps' E2 N. destruct (C30_send ws str (proj2 Ss)) as [bs2 [s2 [E3 [_ [H _]]]]]. rewrite E in E3. injection E3 as <- <-. rewrite (H eq_refl) in E2.
  destruct (C30_receive_partial hs ps str [] Ss Ne Fh Fp) as [s3 [r3 [i3 [h3 [p3 [E4 [H4 _]]]]]]]. rewrite app_nil_r in E4. rewrite E2 in E4. injection E4 as -> -> -> -> ->. destruct H4; tauto.
Qed.

(** Memory safety, partial: whatever the peer sends and however it is split, nothing is written outside a buffer, provided that the length
    field has a value from 4 to 2^31-1. *)
Theorem C30_no_overflow_partial : forall hs ps inp, Forall (fun p => length (snd p) = TCP_BUF_SIZE) ps ->
  (forall h tl, inp = h ++ tl -> length h = 4%nat -> 4 <= from_be4 h < 2 ^ 31) -> string_recv hs ps inp <> None.
Proof.
  intros hs ps inp F H. destruct (recv_safe hs ps msg_alloc [] inp F alloc_hdr H) as [s [m [inp' [hs' [ps' [E PI]]]]]]. unfold string_recv. rewrite E. destruct s; try discriminate.
  destruct (PI eq_refl) as [l [t [R [_ L]]]]. unfold msg_unpack. destruct (address_ok (content m) l 4 R) as [_ A]. rewrite A; [discriminate|lia|]. intros ->. simpl in L. lia.
Qed.
Example no_overflow_case : forall h tl, [0; 0; 5; 1; 7; 7]%nat = h ++ tl -> length h = 4%nat -> 4 <= from_be4 h < 2 ^ 31.
Proof.
  intros h tl E L. assert (h = [0; 0; 5; 1]%nat) as ->; [|vm_compute; split; [discriminate|reflexivity]].
  destruct h as [|a [|b [|c [|d [|]]]]]; try discriminate L. injection E as <- <- <- <- _. auto.
Qed.

(** The full property fails in three ways. A payload read that delivers fewer bytes than asked for: the terminating NUL is stored at the end of
    what was asked for, not of what arrived, so the bytes in between, left over on the stack, become part of the message. *)
Theorem C30_short_read_corrupts_refuted : exists hs ps str res, sendable str /\ str <> [] /\ Forall no_fail hs /\ Forall (fun p => fst p <> OSFail /\ length (snd p) = TCP_BUF_SIZE) ps /\
  option_map (fun r => fst (fst r)) (string_recv hs ps (frame str)) = Some (NWSuccess, Some res, []) /\ res <> str.
Proof.
  exists [OSSome 4], [(OSSome 1, repeat 88%nat TCP_BUF_SIZE); (OSSome 1, repeat 88%nat TCP_BUF_SIZE)], [104; 105]%nat, [104; 88; 105]%nat.
  split; [split; [intros [H|[H|[]]]; discriminate|vm_compute; reflexivity]|]. split; [discriminate|]. split; [repeat constructor; discriminate|].
  split; [repeat constructor; simpl; try discriminate; reflexivity|]. split; [vm_compute; reflexivity|discriminate].
Qed.
(** The empty message is reported as a closed connection. *)
Theorem C30_empty_message_refuted : forall hs o junk ps rest, Forall no_fail hs -> (4 <= length hs)%nat -> o <> OSFail -> length junk = TCP_BUF_SIZE ->
  exists inp' hs' ps', string_recv hs ((o, junk) :: ps) (frame [] ++ rest) = Some (NWConnClosed, None, inp', hs', ps').
Proof.
  intros hs o junk ps rest Fh Lh No Lj.
  assert (G : forall hs m got inp, Forall no_fail hs -> (4 - length got <= length hs)%nat -> hdr_inv m got -> (exists tl, be4 4 = got ++ tl /\ inp = tl ++ rest) ->
    exists m' inp' hs' ps', recv hs ((o, junk) :: ps) m inp = Some (NWConnClosed, m', inp', hs', ps')).
  { clear hs Fh Lh. induction hs as [|w hs IH]; intros m got inp Fh Lh I [tl [Eh Ei]]; pose proof I as [_ [_ [Lg _]]]; [cbn [length] in Lh; lia|].
    inversion Fh as [|x y F1 F2]; subst x y. cbn [recv]. destruct (read_header_ok w m inp got I) as [r [m1 [inp1 [E P]]]]. rewrite E.
    assert (Lt : (length got + length tl = 4)%nat) by (rewrite <- app_length, <- Eh; reflexivity).
    assert (Sp : forall bs, inp = bs ++ inp1 -> (length (got ++ bs) <= 4)%nat -> exists tl', tl = bs ++ tl' /\ inp1 = tl' ++ rest).
    { intros bs Hb Lb. rewrite app_length in Lb. exists (skipn (length bs) tl). rewrite Ei in Hb.
      assert (Q1 : firstn (length bs) (tl ++ rest) = firstn (length bs) (bs ++ inp1)) by (rewrite Hb; auto).
      assert (Q2 : skipn (length bs) (tl ++ rest) = skipn (length bs) (bs ++ inp1)) by (rewrite Hb; auto).
      rewrite !firstn_app, Nat.sub_diag, firstn_O, firstn_all, app_nil_r in Q1. rewrite !skipn_app, Nat.sub_diag, skipn_all in Q2. cbn [app] in Q2. rewrite skipn_O in Q2.
      replace (length bs - length tl)%nat with 0%nat in * by lia. rewrite firstn_O, app_nil_r in Q1. rewrite skipn_O in Q2. split; auto. rewrite <- Q1 at 1. symmetry. apply firstn_skipn. }
    destruct r as [[]|u].
    - destruct P as [bs [Nb [Hi Hv]]]. pose proof Hv as [_ [_ [Lg2 _]]]. destruct (Sp bs Hi) as [tl' [-> Ei1]]; [lia|]. apply (IH m1 (got ++ bs)); auto.
      + rewrite app_length. destruct bs; [tauto|]. cbn [length] in *. lia.
      + exists tl'. split; auto. rewrite Eh, app_assoc. auto.
    - elim F1. auto.
    - exfalso. rewrite P in Ei. destruct tl; [simpl in Lt; lia|discriminate].
    - destruct P.
    - destruct P as [bs [Nb [Hi [L4 [PI Em]]]]]. destruct (Sp bs Hi) as [tl' [-> Ei1]]; [lia|]. assert (tl' = []) by (destruct tl'; auto; rewrite !app_length in *; simpl in *; lia). subst tl'.
      rewrite app_nil_r in Eh. rewrite <- Eh in *. rewrite from_be4_be4, to_int_id in Em by lia. cbn [recv_payload].
      destruct (read_payload_ok o junk m1 inp1 _ 4 4 PI Em) as [s [m2 [inp2 [E2 P2]]]]; auto; [lia|]. rewrite E2. destruct s.
      + destruct P2 as [k [b [_ [Nb2 [_ [Lb _]]]]]]. destruct b; [tauto|]. cbn [length] in Lb. lia.
      + tauto.
      + do 4 eexists. reflexivity.
      + destruct P2 as [k [b [_ [Nb2 [_ [Lb _]]]]]]. destruct b; [tauto|]. cbn [length] in Lb. lia. }
  destruct (G hs msg_alloc [] (frame [] ++ rest) Fh) as [m' [inp' [hs' [ps' E]]]]; auto; [apply alloc_hdr|exists (be4 4); split; auto|].
  unfold string_recv. rewrite E. do 3 eexists. reflexivity.
Qed.
(** A length field below 4 makes the receiver write outside its buffer: the peer decides. *)
Theorem C30_bad_length_overflow_refuted : exists hs ps inp, Forall no_fail hs /\ Forall (fun p => fst p <> OSFail /\ length (snd p) = TCP_BUF_SIZE) ps /\ string_recv hs ps inp = None.
Proof.
  exists [OSSome 4], [(OSSome 1, repeat 0%nat TCP_BUF_SIZE)], [0; 0; 0; 3; 7]%nat. split; [repeat constructor; discriminate|]. split; [|vm_compute; reflexivity].
  constructor; auto. split; [discriminate|reflexivity].
Qed.

Print Assumptions C30_send.
Print Assumptions C30_receive_partial.
Print Assumptions C30_end_to_end_partial.
Print Assumptions C30_no_overflow_partial.
Print Assumptions C30_short_read_corrupts_refuted.
Print Assumptions C30_empty_message_refuted.
Print Assumptions C30_bad_length_overflow_refuted.
