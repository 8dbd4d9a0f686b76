(** * Messages over a TCP connection (INOUT/cio_network.c, .h) *)
From Coq Require Export ZArith.
From Verif Require Export Mem DStr.
Open Scope Z_scope.

(** MsgStatus, cio_network.h:42-48 *)
Inductive status := NWIncomplete | NWError | NWConnClosed | NWSuccess.

(** 32-bit conversions: to uint32_t, and from uint32_t to int *)
Definition to_u32 (z : Z) : Z := z mod 2 ^ 32.
Definition to_int (z : Z) : Z := let u := to_u32 z in if u <? 2 ^ 31 then u else u - 2 ^ 32.
(** htonl: the four bytes in network order; ntohl *)
Definition be4 (z : Z) : list char := map (fun s => Z.to_nat (Z.shiftr z s mod 256)) [24; 16; 8; 0].
Definition from_be4 (l : list char) : Z := fold_left (fun a b => a * 256 + Z.of_nat b) l 0.

(** TCPMsgCell, cio_network.h:52-60 *)
Record msg := { content : dstr; mlen : Z; tcount : Z; lenbuf : block }.
(** TCPMsgAlloc, cio_network.c:167-176 *)
Definition msg_alloc : msg := {| content := dstr_alloc; mlen := -1; tcount := 0; lenbuf := malloc 4 |}.

(** TCPMsgPack, 209-221 *)
Definition msg_pack (str : list char) : option msg :=
  let len := to_u32 (Z.of_nat (length str) + 4) in
  match append_str dstr_alloc [48; 48; 48; 48]%nat with
  | Some d => match dbuf d with
              | Some m => match put_chars m 0 (be4 len) with
                          | Some m' => match append_str {| dbuf := Some m'; dlen := dlen d; dmem := dmem d |} str with
                                       | Some d2 => Some {| content := d2; mlen := to_int len; tcount := 0; lenbuf := malloc 4 |}
                                       | None => None
                                       end
                          | None => None
                          end
              | None => None
              end
  | None => None
  end.

(** TCPMsgUnpack, 238-244: SecureStrdup(DStrAddress(msg->content, sizeof(uint32_t))); strdup(NULL) has no result *)
Definition msg_unpack (m : msg) : option (list char) := match address (content m) 4 with Some (Some s) => Some s | _ => None end.

(** The cells [i, i+n) of the content, as handed to write(): they must exist and be initialised. *)
Fixpoint all_some {A} (l : list (option A)) : option (list A) :=
  match l with [] => Some [] | Some a :: r => option_map (cons a) (all_some r) | None :: _ => None end.
Definition bytes_at (d : dstr) (i n : nat) : option (list char) :=
  match dbuf d with
  | Some m => if (i + n <=? length m)%nat then all_some (firstn n (skipn i m)) else None
  | None => None
  end.

(** What the operating system does with one write() or read(): fail, or transfer at most the given number of bytes. *)
Inductive os := OSFail | OSSome (n : nat).

(** TCPMsgWrite, 261-280: the bytes sent, the status, the message *)
Definition msg_write (o : os) (m : msg) : option (list char * status * msg) :=
  let remaining := mlen m - tcount m in
  match bytes_at (content m) (Z.to_nat (tcount m)) (Z.to_nat remaining) with
  | None => None
  | Some bs => match o with
               | OSFail => Some ([], NWError, m)
               | OSSome n => let sent := firstn n bs in
                             let m' := {| content := content m; mlen := mlen m; tcount := tcount m + Z.of_nat (length sent); lenbuf := lenbuf m |} in
                             Some (sent, if mlen m' =? tcount m' then NWSuccess else NWIncomplete, m')
               end
  end.
(** TCPMsgSend, 371-384: all bytes sent and the status; NWIncomplete: the schedule ended before the loop *)
Fixpoint msg_send (sched : list os) (m : msg) : option (list char * status) :=
  match sched with
  | [] => Some ([], NWIncomplete)
  | o :: r => match msg_write o m with
              | None => None
              | Some (bs, NWIncomplete, m') => match msg_send r m' with Some (bs', s) => Some (bs ++ bs', s) | None => None end
              | Some (bs, s, _) => Some (bs, s)
              end
  end.
(** TCPStringSend, 436-448, without the error message *)
Definition string_send (sched : list os) (str : list char) : option (list char * status) :=
  match msg_pack str with Some m => msg_send sched m | None => None end.

Definition TCP_BUF_SIZE : nat := 1025.

(** read(sock, buf, n) when [inp] is what the peer has sent and will send: [None] for -1, otherwise the bytes; none only if n = 0 or
    if the connection is closed. *)
Definition os_read (o : os) (n : Z) (inp : list char) : option (list char) :=
  match o with
  | OSFail => None
  | OSSome k => Some (firstn (Nat.max 1 k) (firstn (Z.to_nat (Z.min n (Z.of_nat (length inp)))) inp))
  end.

(** The first part of TCPMsgRead, 307-331: complete the length field. [inl]: TCPMsgRead returns *)
Definition read_header (o : os) (m : msg) (inp : list char) : option ((status + unit) * msg * list char) :=
  match os_read o (4 - tcount m) inp with
  | None => Some (inl NWError, m, inp)
  | Some bs =>
      match put_chars (lenbuf m) (Z.to_nat (tcount m)) bs with
      | None => None
      | Some lb =>
          let inp' := skipn (length bs) inp in
          let tc := tcount m + Z.of_nat (length bs) in
          match bs with
          | [] => Some (inl NWConnClosed, {| content := content m; mlen := mlen m; tcount := tcount m; lenbuf := lb |}, inp')
          | _ =>
              if tc <? 4 then Some (inl NWIncomplete, {| content := content m; mlen := mlen m; tcount := tc; lenbuf := lb |}, inp')
              else match all_some lb with
                   | None => None
                   | Some hdr => match append_buffer (content m) hdr with
                                 | None => None
                                 | Some d => Some (inr tt, {| content := d; mlen := to_int (from_be4 hdr); tcount := tc; lenbuf := lb |}, inp')
                                 end
                   end
          end
      end
  end.

(** The second part, 333-352. [junk] is the content of the local variable buffer before the call: it is not initialised, the bytes are
    whatever the stack holds. len is uint32_t, MIN is computed in int. *)
Definition read_payload (o : os) (junk : list char) (m : msg) (inp : list char) : option (status * msg * list char) :=
  let len := to_u32 (Z.min (Z.of_nat TCP_BUF_SIZE - 1) (mlen m - tcount m)) in
  match os_read o len inp with
  | None => Some (NWError, m, inp)
  | Some bs =>
      match put_chars (map Some junk) 0 bs with            (* the kernel stores the bytes into buffer *)
      | None => None
      | Some b =>
          let inp' := skipn (length bs) inp in
          match bs with
          | [] => Some (NWConnClosed, m, inp')
          | _ => if Z.of_nat TCP_BUF_SIZE <=? len then None  (* buffer[len] = '\0' outside the array *)
                 else match mwrite b (Z.to_nat len) (Some 0%nat) with
                      | None => None
                      | Some b' => match str_at b' 0 with
                                   | None => None
                                   | Some s => match append_str (content m) s with
                                               | None => None
                                               | Some d => let m' := {| content := d; mlen := mlen m; tcount := tcount m + Z.of_nat (length bs); lenbuf := lenbuf m |} in
                                                           Some (if mlen m' =? tcount m' then NWSuccess else NWIncomplete, m', inp')
                                               end
                                   end
                      end
          end
      end
  end.

(** TCPMsgRecv, 402-417, with TCPMsgRead inlined. The reads of the length field follow the schedule hs, the reads of the payload the
    schedule ps, which also gives the contents of the buffer. A result of NWIncomplete means that a schedule ended before the loop. *)
Fixpoint recv_payload (ps : list (os * list char)) (m : msg) (inp : list char) : option (status * msg * list char * list (os * list char)) :=
  match ps with
  | [] => Some (NWIncomplete, m, inp, [])
  | (o, junk) :: r => match read_payload o junk m inp with
                      | None => None
                      | Some (NWIncomplete, m', inp') => recv_payload r m' inp'
                      | Some (s, m', inp') => Some (s, m', inp', r)
                      end
  end.
Fixpoint recv (hs : list os) (ps : list (os * list char)) (m : msg) (inp : list char) : option (status * msg * list char * list os * list (os * list char)) :=
  match hs with
  | [] => Some (NWIncomplete, m, inp, [], ps)
  | o :: r => match read_header o m inp with
              | None => None
              | Some (inl NWIncomplete, m', inp') => recv r ps m' inp'
              | Some (inl s, m', inp') => Some (s, m', inp', r, ps)
              | Some (inr _, m', inp') => match recv_payload ps m' inp' with
                                          | None => None
                                          | Some (s, m2, inp2, ps') => Some (s, m2, inp2, r, ps')
                                          end
              end
  end.
(** TCPStringRecv, 464-478: the string, [None] for NULL *)
Definition string_recv (hs : list os) (ps : list (os * list char)) (inp : list char) : option (status * option (list char) * list char * list os * list (os * list char)) :=
  match recv hs ps msg_alloc inp with
  | None => None
  | Some (NWSuccess, m, inp', hs', ps') => match msg_unpack m with Some s => Some (NWSuccess, Some s, inp', hs', ps') | None => None end
  | Some (s, _, inp', hs', ps') => Some (s, None, inp', hs', ps')
  end.

(** * Specification *)
(** what goes over the wire for a string: the total length in four bytes, most significant first, then the string *)
Definition frame (str : list char) : list char := be4 (Z.of_nat (length str) + 4) ++ str.
Definition sendable (str : list char) : Prop := no_nul str /\ Z.of_nat (length str) + 4 < 2 ^ 31.
Definition no_fail (o : os) : Prop := o <> OSFail.
(** a payload read that delivers all that was asked for, or for which the stack happens to hold a NUL after the bytes delivered *)
Definition lucky (p : os * list char) : Prop :=
  length (snd p) = TCP_BUF_SIZE /\ exists k, fst p = OSSome k /\ ((TCP_BUF_SIZE - 1 <= k)%nat \/ nth_error (snd p) (Nat.max 1 k) = Some 0%nat).
