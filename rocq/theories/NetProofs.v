(** Proofs about messages. *)
From Coq Require Import ZifyBool.
From Verif Require Import Mem DStr DStrProofs Net.

Lemma be4_len z : length (be4 z) = 4%nat.
Proof. reflexivity. Qed.
Lemma from_be4_be4 z : 0 <= z < 2 ^ 32 -> from_be4 (be4 z) = z.
Proof.
  intros H. unfold be4, from_be4. cbn [map fold_left]. rewrite !Z.shiftr_div_pow2 by lia.
  assert (M : forall a, Z.of_nat (Z.to_nat (a mod 256)) = a mod 256) by (intros a; apply Z2Nat.id; apply Z.mod_pos_bound; lia). rewrite !M.
  change (2 ^ 24) with (256 * (256 * 256)). change (2 ^ 16) with (256 * 256). change (2 ^ 8) with 256. change (2 ^ 0) with 1. rewrite Z.div_1_r.
  assert (H3 : z / (256 * (256 * 256)) mod 256 = z / (256 * (256 * 256))) by (apply Z.mod_small; split; [apply Z.div_pos; lia|apply Z.div_lt_upper_bound; lia]).
  rewrite H3. rewrite <- !Z.div_div by lia.
  pose proof (Z.div_mod z 256 ltac:(lia)). pose proof (Z.div_mod (z / 256) 256 ltac:(lia)). pose proof (Z.div_mod (z / 256 / 256) 256 ltac:(lia)). lia.
Qed.
Lemma to_u32_id z : 0 <= z < 2 ^ 32 -> to_u32 z = z.
Proof. intros. apply Z.mod_small. auto. Qed.
Lemma to_int_id z : 0 <= z < 2 ^ 31 -> to_int z = z.
Proof. intros H. unfold to_int. rewrite to_u32_id by lia. cbv zeta. destruct (Z.ltb_spec z (2 ^ 31)); lia. Qed.
Lemma frame_len str : length (frame str) = (4 + length str)%nat.
Proof. unfold frame. rewrite app_length, be4_len. auto. Qed.

Lemma pack_ok str : Z.of_nat (length str) + 4 < 2 ^ 31 -> exists m, msg_pack str = Some m /\ rep (content m) (frame str) /\ mlen m = Z.of_nat (length (frame str)) /\ tcount m = 0.
Proof.
  intros L. unfold msg_pack. rewrite to_u32_id by lia. destruct (append_str_ok dstr_alloc [] [48; 48; 48; 48]%nat alloc_rep) as [d [E R]]. rewrite E. cbn [app] in R.
  destruct R as [Hl Hb]. destruct (dbuf d) as [m|]; [|destruct Hb; discriminate]. destruct Hb as [Lm [rest Em]].
  pose proof (put_chars_app (be4 (Z.of_nat (length str) + 4)) [] m) as P. cbn [app length] in P. rewrite be4_len in P. rewrite P.
  2:{ rewrite Em, app_length, map_length. simpl. lia. }
  assert (R2 : rep {| dbuf := Some (map Some (be4 (Z.of_nat (length str) + 4)) ++ skipn 4 m); dlen := dlen d; dmem := dmem d |} (be4 (Z.of_nat (length str) + 4))).
  { split; cbn [dlen dbuf dmem]; [rewrite Hl; reflexivity|]. split.
    - rewrite app_length, map_length, be4_len, skipn_length, Lm. rewrite <- Lm, Em, app_length, map_length. simpl. lia.
    - exists rest. rewrite Em. rewrite map_app, <- app_assoc. reflexivity. }
  destruct (append_str_ok _ _ str R2) as [d2 [E2 R3]]. match goal with |- context [append_str ?a str] => replace (append_str a str) with (Some d2) by (symmetry; exact E2) end. eexists. split; [reflexivity|]. cbn [content mlen tcount]. split; auto. split; auto.
  rewrite to_int_id by lia. rewrite frame_len. lia.
Qed.

Lemma all_some_map {A} (l : list A) : all_some (map Some l) = Some l.
Proof. induction l as [|a l IH]; simpl; auto. rewrite IH. auto. Qed.
Lemma bytes_at_ok d l i n : rep d l -> (i + n <= length l)%nat -> l <> [] -> bytes_at d i n = Some (firstn n (skipn i l)).
Proof.
  intros [Hl Hb] L N. unfold bytes_at. destruct (dbuf d) as [m|]; [|destruct Hb as [_ ->]; tauto]. destruct Hb as [Lm [rest Em]].
  assert (Em2 : m = map Some l ++ Some 0%nat :: rest) by (rewrite Em, map_app, <- app_assoc; reflexivity).
  assert (length m = length l + S (length rest))%nat by (rewrite Em2, app_length, map_length; auto).
  destruct (Nat.leb_spec (i + n) (length m)); [|lia]. rewrite Em2, skipn_app, map_length. replace (i - length l)%nat with 0%nat by lia. rewrite skipn_O.
 
  rewrite firstn_app, skipn_length, map_length. replace (n - (length l - i))%nat with 0%nat by lia. rewrite firstn_O, app_nil_r. rewrite skipn_map, firstn_map. apply all_some_map.
Qed.
Lemma skipn_skipn {A} (l : list A) : forall i j, skipn i (skipn j l) = skipn (j + i) l.
Proof. induction l as [|a l IH]; intros i j; [rewrite !skipn_nil; auto|]. destruct j; [reflexivity|]. apply IH. Qed.

Lemma send_ok l : l <> [] -> forall sched m t, rep (content m) l -> mlen m = Z.of_nat (length l) -> tcount m = Z.of_nat t -> (t <= length l)%nat ->
  exists bs s, msg_send sched m = Some (bs, s) /\ (exists r, skipn t l = bs ++ r) /\
    match s with
    | NWSuccess => bs = skipn t l
    | NWError => In OSFail sched
    | NWIncomplete => True
    | NWConnClosed => False
    end /\ (t < length l -> (forall o, In o sched -> exists n, o = OSSome (S n)) -> length l - t <= length sched -> s = NWSuccess)%nat.
Proof.
  intros N. induction sched as [|o sched IH]; intros m t R Em Et Lt; cbn [msg_send].
  - exists [], NWIncomplete. split; auto. split; [exists (skipn t l); auto|]. split; auto. simpl. lia.
  - unfold msg_write. rewrite Em, Et. rewrite Nat2Z.id. replace (Z.to_nat (Z.of_nat (length l) - Z.of_nat t)) with (length l - t)%nat by lia.
    rewrite (bytes_at_ok _ l) by (auto; lia). rewrite firstn_all2 by (rewrite skipn_length; lia). destruct o as [|n].
    { exists [], NWError. split; auto. split; [exists (skipn t l); auto|]. split; [simpl; auto|]. intros _ H. destruct (H OSFail) as [n Hn]; [simpl; auto|discriminate]. }
    cbn [tcount mlen content]. set (bs := firstn n (skipn t l)). assert (Lb : length bs = Nat.min n (length l - t)) by (unfold bs; rewrite firstn_length, skipn_length; auto).
    destruct (Z.eqb_spec (Z.of_nat (length l)) (Z.of_nat t + Z.of_nat (length bs))) as [E|E].
    + exists bs, NWSuccess. split; auto. split; [exists (skipn n (skipn t l)); unfold bs; rewrite firstn_skipn; auto|]. split; auto.
      unfold bs. apply firstn_all2. rewrite skipn_length. lia.
    + set (m' := {| content := content m; mlen := Z.of_nat (length l); tcount := Z.of_nat t + Z.of_nat (length bs); lenbuf := lenbuf m |}).
      destruct (IH m' (t + length bs)%nat) as [bs' [s [E2 [[r Hr] [Hs Hlive]]]]]; auto; [unfold m'; simpl; lia|lia|]. rewrite E2. exists (bs ++ bs'), s. split; auto.
      assert (Sk : skipn t l = bs ++ skipn (t + length bs) l).
      { rewrite <- skipn_skipn. unfold bs at 1. rewrite <- (firstn_skipn n (skipn t l)) at 1. f_equal. rewrite Lb. destruct (Nat.min_spec n (length l - t)) as [[A1 ->]|[A1 ->]]; auto.
        rewrite !skipn_all2; auto; rewrite skipn_length; lia. }
      split; [exists r; rewrite Sk, Hr, app_assoc; auto|]. split.
      * destruct s; auto; [simpl; auto|]. rewrite Hs, <- Sk. auto.
      * intros A1 A2 A3. apply Hlive; [lia|intros; apply A2; simpl; auto|]. destruct (A2 (OSSome n)) as [n' Hn]; [simpl; auto|]. injection Hn as ->. simpl in A3. lia.
Qed.

(** ** Receiving: the length field *)
Definition hdr_inv (m : msg) (got : list char) : Prop :=
  content m = dstr_alloc /\ tcount m = Z.of_nat (length got) /\ (length got < 4)%nat /\ lenbuf m = map Some got ++ repeat None (4 - length got).
Definition pay_inv (m : msg) (l : list char) (t : nat) : Prop :=
  rep (content m) l /\ tcount m = Z.of_nat t /\ (4 <= length l)%nat.

Lemma os_read_ok o n inp bs : 0 <= n -> os_read o n inp = Some bs -> exists k, o = OSSome k /\ inp = bs ++ skipn (length bs) inp /\ length bs = Nat.min (Nat.max 1 k) (Nat.min (Z.to_nat n) (length inp)).
Proof.
  intros Hn E. destruct o as [|k]; [discriminate|]. exists k. split; auto. unfold os_read in E. injection E as E.
  assert (E2 : bs = firstn (Nat.min (Nat.max 1 k) (Nat.min (Z.to_nat n) (length inp))) inp).
  { rewrite <- E. rewrite firstn_firstn. f_equal. destruct k; lia. }
  assert (L : length bs = Nat.min (Nat.max 1 k) (Nat.min (Z.to_nat n) (length inp))) by (rewrite E2, firstn_length; lia).
  split; auto. rewrite L. rewrite E2 at 1. symmetry. apply firstn_skipn.
Qed.

Lemma read_header_ok o m inp got : hdr_inv m got -> exists r m' inp', read_header o m inp = Some (r, m', inp') /\
  match r with
  | inl NWError => o = OSFail
  | inl NWConnClosed => inp = []
  | inl NWIncomplete => exists bs, bs <> [] /\ inp = bs ++ inp' /\ hdr_inv m' (got ++ bs)
  | inl NWSuccess => False
  | inr _ => exists bs, bs <> [] /\ inp = bs ++ inp' /\ length (got ++ bs) = 4%nat /\ pay_inv m' (got ++ bs) 4 /\ mlen m' = to_int (from_be4 (got ++ bs))
  end.
Proof.
  intros [C [T [L B]]]. unfold read_header. rewrite T. destruct (os_read o (4 - Z.of_nat (length got)) inp) as [bs|] eqn:E.
  2:{ destruct o; [|discriminate]. exists (inl NWError), m, inp. auto. }
  destruct (os_read_ok o (4 - Z.of_nat (length got)) inp bs ltac:(lia) E) as [k [-> [Hi Lb]]]. clear E. rewrite B, Nat2Z.id.
  pose proof (put_chars_app bs (map Some got) (repeat None (4 - length got))) as P. rewrite map_length, repeat_length in P. rewrite P by lia. clear P.
  set (inp' := skipn (length bs) inp) in *. destruct bs as [|b bs].
  { eexists. eexists. eexists. split; [reflexivity|]. cbn. destruct inp; auto. cbn [length] in Lb. lia. }
  set (x := b :: bs) in *.
  assert (SR : skipn (length x) (repeat (@None nat) (4 - length got)) = repeat None (4 - length (got ++ x))).
  { rewrite app_length. assert (RE : repeat (@None nat) (4 - length got) = repeat None (length x) ++ repeat None (4 - (length got + length x))) by (rewrite <- repeat_app; f_equal; lia).
    rewrite RE, skipn_app, repeat_length, Nat.sub_diag. rewrite skipn_all2 by (rewrite repeat_length; lia). reflexivity. }
  assert (LB : map (@Some nat) got ++ map Some x ++ skipn (length x) (repeat None (4 - length got)) = map Some (got ++ x) ++ repeat None (4 - length (got ++ x))).
  { rewrite SR, map_app, <- app_assoc. reflexivity. }
  rewrite LB. replace (Z.of_nat (length got) + Z.of_nat (length x)) with (Z.of_nat (length (got ++ x))) by (rewrite app_length; lia).
  destruct (Z.ltb_spec (Z.of_nat (length (got ++ x))) 4) as [A|A].
  - eexists. eexists. eexists. split; [reflexivity|]. exists x. split; [discriminate|]. split; auto. repeat split; cbn [content tcount lenbuf]; auto. lia.
  - assert (L4 : length (got ++ x) = 4%nat) by (rewrite app_length in *; lia). rewrite L4. cbn [Nat.sub repeat]. rewrite app_nil_r, all_some_map. rewrite C.
    destruct (append_buffer_ok (got ++ x) dstr_alloc [] alloc_rep) as [d [-> R]]. cbn [app] in R. eexists. eexists. eexists. split; [reflexivity|]. exists x. split; [discriminate|]. split; auto.
    split; auto. split; auto. repeat split; cbn [content tcount]; auto; try apply R. lia.
Qed.

(** ** Receiving: the payload *)
Lemma before_nul_app_no a b : no_nul a -> before_nul (a ++ b) = a ++ before_nul b.
Proof.
  induction a as [|[|c] a IH]; intros N; auto; [elim N; simpl; auto|]. cbn [app before_nul]. f_equal. apply IH. intros H. apply N. simpl. auto.
Qed.
Lemma read_payload_ok o junk m inp l t L : pay_inv m l t -> mlen m = Z.of_nat L -> (t <= L)%nat -> Z.of_nat L < 2 ^ 31 -> length junk = TCP_BUF_SIZE ->
  exists s m' inp', read_payload o junk m inp = Some (s, m', inp') /\
  match s with
  | NWError => o = OSFail
  | NWConnClosed => inp = [] \/ t = L
  | _ => exists k bs, o = OSSome k /\ bs <> [] /\ inp = bs ++ inp' /\ (t + length bs <= L)%nat /\
      length bs = Nat.min (Nat.max 1 k) (Nat.min (Nat.min 1024 (L - t)) (length inp)) /\
      pay_inv m' (l ++ before_nul (bs ++ firstn (Nat.min 1024 (L - t) - length bs) (skipn (length bs) junk))) (t + length bs) /\ mlen m' = Z.of_nat L /\
      (s = NWSuccess <-> t + length bs = L)%nat
  end.
Proof.
  intros [R [T L4]] Em Lt Lm Lj. unfold read_payload. rewrite Em, T.
  assert (El : to_u32 (Z.min (Z.of_nat TCP_BUF_SIZE - 1) (Z.of_nat L - Z.of_nat t)) = Z.of_nat (Nat.min 1024 (L - t))).
  { rewrite to_u32_id; change (Z.of_nat TCP_BUF_SIZE - 1) with 1024; lia. }
  rewrite El. set (len := Nat.min 1024 (L - t)). destruct (os_read o (Z.of_nat len) inp) as [bs|] eqn:E.
  2:{ destruct o; [|discriminate]. exists NWError, m, inp. auto. }
  destruct (os_read_ok o (Z.of_nat len) inp bs ltac:(lia) E) as [k [-> [Hi Lb]]]. clear E. rewrite Nat2Z.id in Lb.
  pose proof (put_chars_app bs [] (map Some junk)) as P. cbn [app length] in P. rewrite map_length in P. rewrite P by (rewrite Lj; unfold TCP_BUF_SIZE, len in *; lia). clear P.
  set (inp' := skipn (length bs) inp) in *. destruct bs as [|b bs].
  { exists NWConnClosed, m, inp'. split; auto. destruct inp; [auto|]. right. cbn [length] in Lb. unfold len in Lb. lia. }
  set (x := b :: bs) in *. replace (Z.of_nat TCP_BUF_SIZE <=? Z.of_nat len) with false by (unfold TCP_BUF_SIZE, len; lia). rewrite Nat2Z.id.
  assert (Lx : (length x <= len)%nat) by lia.
  assert (Sp : exists z r, map Some x ++ skipn (length x) (map Some junk) = (map Some (x ++ firstn (len - length x) (skipn (length x) junk))) ++ z :: r).
  { rewrite skipn_map. set (j := skipn (length x) junk). assert (Lj2 : length j = (TCP_BUF_SIZE - length x)%nat) by (unfold j; rewrite skipn_length, Lj; auto).
    destruct (skipn (len - length x) j) as [|z r] eqn:Ez.
    2:{ exists (Some z), (map Some r). rewrite map_app, <- app_assoc. f_equal. rewrite <- (firstn_skipn (len - length x) j) at 1. rewrite Ez, map_app. reflexivity. }
    assert (LL : length (skipn (len - length x) j) = 0%nat) by (rewrite Ez; auto). rewrite skipn_length, Lj2 in LL. unfold TCP_BUF_SIZE, len in *. lia. }
  destruct Sp as [z [r Sp]]. cbn [app]. rewrite Sp. set (y := x ++ firstn (len - length x) (skipn (length x) junk)) in *.
  assert (Ly : length y = len).
  { unfold y. rewrite app_length, firstn_length, skipn_length, Lj. unfold TCP_BUF_SIZE, len in *. lia. }
  assert (MW : mwrite (map Some y ++ z :: r) len (Some 0%nat) = Some (map Some y ++ Some 0%nat :: r)).
  { replace len with (length (map (@Some nat) y)) by (rewrite map_length; auto). apply mwrite_app. }
  replace (mwrite (map Some y ++ z :: r) len (Some 0%nat)) with (Some (map Some y ++ Some 0%nat :: r)) by (symmetry; exact MW).
  assert (SA : str_at (map Some y ++ Some 0%nat :: r) 0 = Some (before_nul y)).
  { unfold str_at. rewrite skipn_O. replace (map Some y ++ Some 0%nat :: r) with (map Some (y ++ [0%nat]) ++ r) by (rewrite map_app, <- app_assoc; reflexivity). apply cells_str_ok. }
  replace (str_at (map Some y ++ Some 0%nat :: r) 0) with (Some (before_nul y)) by (symmetry; exact SA).
  destruct (append_str_ok (content m) l (before_nul y) R) as [d [-> Rd]]. cbn [mlen tcount].
  eexists. eexists. exists inp'. split; [reflexivity|].
  assert (PI : forall lb, pay_inv {| content := d; mlen := mlen m; tcount := Z.of_nat t + Z.of_nat (length x); lenbuf := lb |} (l ++ before_nul y) (t + length x)).
  { intros lb. split; auto. split; [cbn [tcount]; lia|]. rewrite app_length. lia. }
  destruct (Z.eqb_spec (Z.of_nat L) (Z.of_nat t + Z.of_nat (length x))) as [A|A]; exists k, x; rewrite Em in PI.
  - split; auto. split; [discriminate|]. split; auto. split; [lia|]. split; auto. split; [apply PI|]. split; auto. split; auto. intros _. lia.
  - split; auto. split; [discriminate|]. split; auto. split; [unfold len in *; lia|]. split; auto. split; [apply PI|]. split; auto. split; [discriminate|lia].
Qed.

Lemma lucky_bs k junk bs len (inp : list char) p : lucky (OSSome k, junk) -> length bs = Nat.min (Nat.max 1 k) (Nat.min len (length inp)) -> (len <= 1024)%nat -> (len <= length inp)%nat -> no_nul bs -> p = OSSome k ->
  before_nul (bs ++ firstn (len - length bs) (skipn (length bs) junk)) = bs.
Proof.
  intros [Lj [k' [E1 E2]]] Lb L1 L2 N _. cbn [fst snd] in E1, E2, Lj. injection E1 as <-. rewrite before_nul_app_no by auto. rewrite <- (app_nil_r bs) at 4. f_equal.
  destruct (Nat.eq_dec (length bs) len) as [->|Ne]; [rewrite Nat.sub_diag; auto|]. destruct E2 as [E2|E2]; [unfold TCP_BUF_SIZE in E2; lia|].
  assert (Lb2 : length bs = Nat.max 1 k) by lia. rewrite <- Lb2 in E2. apply nth_error_split in E2. destruct E2 as [a [b [-> La]]]. rewrite <- La, skipn_app, Nat.sub_diag, skipn_all. cbn [skipn app].
  destruct (len - length a)%nat; reflexivity.
Qed.
Lemma recv_payload_ok hdr str rest : length hdr = 4%nat -> no_nul str -> Z.of_nat (length str) + 4 < 2 ^ 31 -> forall ps m p inp, Forall lucky ps ->
  pay_inv m (hdr ++ firstn p str) (4 + p) -> (p < length str)%nat -> mlen m = Z.of_nat (4 + length str) -> inp = skipn p str ++ rest ->
  exists s m' inp' ps', recv_payload ps m inp = Some (s, m', inp', ps') /\ (s = NWSuccess /\ rep (content m') (hdr ++ str) /\ inp' = rest \/ s = NWIncomplete) /\
    (length str - p <= length ps -> s = NWSuccess)%nat /\ (exists u, ps = u ++ ps').
Proof.
  intros Lh N Ls. induction ps as [|[o junk] ps IH]; intros m p inp F I Lp Em Ei; cbn [recv_payload].
  - exists NWIncomplete, m, inp, []. split; auto. split; auto. split; [simpl; lia|]. exists []. auto.
  - inversion F as [|x y F1 F2]; subst x y. pose proof F1 as [Lj [k [Eo _]]]. simpl in Lj, Eo.
    destruct (read_payload_ok o junk m inp (hdr ++ firstn p str) (4 + p) (4 + length str) I Em) as [s [m1 [inp1 [E P]]]]; auto; [lia|lia|]. rewrite E. clear E. cbn [fst snd] in *.
    assert (Li : (length inp >= length str - p)%nat) by (rewrite Ei, app_length, skipn_length; lia).
    assert (X : (s = NWIncomplete \/ s = NWSuccess) -> exists bs, bs <> [] /\ inp = bs ++ inp1 /\ (p + length bs <= length str)%nat /\ pay_inv m1 (hdr ++ firstn (p + length bs) str) (4 + (p + length bs)) /\
       mlen m1 = Z.of_nat (4 + length str) /\ inp1 = skipn (p + length bs) str ++ rest /\ (s = NWSuccess <-> p + length bs = length str)%nat).
    { intros Hs. assert (P' : exists k bs, o = OSSome k /\ bs <> [] /\ inp = bs ++ inp1 /\ (4 + p + length bs <= 4 + length str)%nat /\
        length bs = Nat.min (Nat.max 1 k) (Nat.min (Nat.min 1024 (4 + length str - (4 + p))) (length inp)) /\
        pay_inv m1 ((hdr ++ firstn p str) ++ before_nul (bs ++ firstn (Nat.min 1024 (4 + length str - (4 + p)) - length bs) (skipn (length bs) junk))) (4 + p + length bs) /\ mlen m1 = Z.of_nat (4 + length str) /\
        (s = NWSuccess <-> 4 + p + length bs = 4 + length str)%nat) by (destruct Hs as [-> | ->]; exact P). clear P.
      destruct P' as [k2 [bs [Eo2 [Nb [Hi [Lb [Lb2 [PI [Em1 Hs2]]]]]]]]]. exists bs. split; auto. split; auto. split; [lia|].
      assert (Bs : bs = firstn (length bs) (skipn p str)).
      { rewrite Hi in Ei. assert (firstn (length bs) (bs ++ inp1) = firstn (length bs) (skipn p str ++ rest)) by (rewrite Ei; auto).
        rewrite firstn_app, Nat.sub_diag, firstn_all, firstn_O, app_nil_r in H. rewrite firstn_app in H. replace (length bs - length (skipn p str))%nat with 0%nat in H by (rewrite skipn_length; lia). rewrite firstn_O, app_nil_r in H. auto. }
      assert (Nbs : no_nul bs).
      { intros H. apply N. rewrite Bs in H. rewrite <- (firstn_skipn p str). apply in_or_app. right. rewrite <- (firstn_skipn (length bs) (skipn p str)). apply in_or_app. auto. }
      rewrite (lucky_bs k2 junk bs (Nat.min 1024 (4 + length str - (4 + p))) inp o) in PI; auto; try lia; [|rewrite Eo2 in F1; exact F1].
      split; [|split; auto; split; [|rewrite Hs2; lia]].
      - replace (4 + (p + length bs))%nat with (4 + p + length bs)%nat by lia. replace (hdr ++ firstn (p + length bs) str) with ((hdr ++ firstn p str) ++ bs); auto.
        rewrite <- app_assoc. f_equal. rewrite Bs at 1. rewrite <- (firstn_skipn p (firstn (p + length bs) str)). rewrite firstn_firstn. f_equal; [f_equal; lia|]. rewrite firstn_skipn_comm. reflexivity.
      - rewrite Hi in Ei. assert (skipn (length bs) (bs ++ inp1) = skipn (length bs) (skipn p str ++ rest)) by (rewrite Ei; auto).
        rewrite skipn_app, Nat.sub_diag, skipn_all in H. cbn [app skipn] in H. rewrite H. rewrite skipn_app. replace (length bs - length (skipn p str))%nat with 0%nat by (rewrite skipn_length; lia). rewrite skipn_O, skipn_skipn. auto. }
    destruct s.
    + destruct (X (or_introl eq_refl)) as [bs [Nb [Hi [Lb [PI [Em1 [Ei1 Hs]]]]]]]. assert (p + length bs <> length str)%nat by (intros A; apply Hs in A; discriminate). clear X.
      destruct (IH m1 (p + length bs)%nat inp1 F2 PI) as [s2 [m2 [inp2 [ps2 [E2 [H1 [H2 [u Hu]]]]]]]]; auto; [lia|]. exists s2, m2, inp2, ps2. split; auto. split; auto. split.
      * intros A. apply H2. simpl in A. destruct bs; [tauto|]. simpl. lia.
      * exists ((o, junk) :: u). rewrite Hu. auto.
    + rewrite Eo in P. discriminate.
    + exfalso. destruct P as [P|P]; [|lia]. rewrite P in Li. simpl in Li. lia.
    + destruct (X (or_intror eq_refl)) as [bs [Nb [Hi [Lb [PI [Em1 [Ei1 Hs]]]]]]]. clear X. assert (A : (p + length bs = length str)%nat) by (apply Hs; auto). exists NWSuccess, m1, inp1, ps.
      split; auto. split; [left|]. { split; auto. rewrite A in PI, Ei1. rewrite firstn_all in PI. rewrite skipn_all in Ei1. split; auto. apply PI. }
      split; auto. exists [(o, junk)]. auto.
Qed.

Lemma recv_ok str rest : sendable str -> str <> [] -> forall hs ps m got inp, Forall no_fail hs -> Forall lucky ps -> hdr_inv m got ->
  (exists tl, be4 (Z.of_nat (length str) + 4) = got ++ tl /\ inp = tl ++ str ++ rest) ->
  exists s m' inp' hs' ps', recv hs ps m inp = Some (s, m', inp', hs', ps') /\ (s = NWSuccess /\ rep (content m') (frame str) /\ inp' = rest \/ s = NWIncomplete) /\
    (4 - length got <= length hs -> length str <= length ps -> s = NWSuccess)%nat.
Proof.
  intros [N Ls] Ne. induction hs as [|o hs IH]; intros ps m got inp Fh Fp I [tl [Eh Ei]]; cbn [recv].
  - exists NWIncomplete, m, inp, [], ps. split; auto. split; auto. cbn [length]. destruct I as [_ [_ [L _]]]. lia.
  - inversion Fh as [|x y F1 F2]; subst x y. destruct (read_header_ok o m inp got I) as [r [m1 [inp1 [E P]]]]. rewrite E. clear E.
    assert (Lt : (length got + length tl = 4)%nat) by (rewrite <- app_length, <- Eh; reflexivity). pose proof I as [_ [_ [Lg _]]].
    assert (Sp : forall bs, inp = bs ++ inp1 -> (length (got ++ bs) <= 4)%nat -> exists tl', tl = bs ++ tl' /\ inp1 = tl' ++ str ++ rest).
    { intros bs Hb Lb. rewrite app_length in Lb. exists (skipn (length bs) tl). rewrite Ei in Hb.
      assert (Q1 : firstn (length bs) (tl ++ str ++ rest) = firstn (length bs) (bs ++ inp1)) by (rewrite Hb; auto).
      assert (Q2 : skipn (length bs) (tl ++ str ++ rest) = skipn (length bs) (bs ++ inp1)) by (rewrite Hb; auto).
      rewrite !firstn_app, Nat.sub_diag, firstn_O, firstn_all, app_nil_r in Q1. rewrite !skipn_app, Nat.sub_diag, skipn_all in Q2. cbn [app] in Q2. rewrite skipn_O in Q2.
      replace (length bs - length tl)%nat with 0%nat in * by lia. rewrite firstn_O, app_nil_r in Q1. rewrite skipn_O in Q2. split; auto. rewrite <- Q1 at 1. symmetry. apply firstn_skipn. }
    destruct r as [s|u].
    + destruct s.
      * destruct P as [bs [Nb [Hi Hv]]]. pose proof Hv as [_ [_ [Lg2 _]]]. destruct (Sp bs Hi) as [tl' [-> Ei1]]; [lia|].
        destruct (IH ps m1 (got ++ bs) inp1 F2 Fp Hv) as [s2 [m2 [inp2 [hs2 [ps2 [E2 [H1 H2]]]]]]]; [exists tl'; split; auto; rewrite Eh, app_assoc; auto|].
        exists s2, m2, inp2, hs2, ps2. split; auto. split; auto. intros A B. apply H2; auto. rewrite app_length. destruct bs; [tauto|]. cbn [length] in *. lia.
      * elim F1. auto.
      * exfalso. rewrite P in Ei. destruct tl; [simpl in Lt; lia|discriminate].
      * destruct P.
    + destruct P as [bs [Nb [Hi [L4 [PI Em]]]]]. destruct (Sp bs Hi) as [tl' [-> Ei1]]; [lia|]. assert (tl' = []) by (destruct tl'; auto; rewrite !app_length in *; simpl in *; lia). subst tl'.
      rewrite app_nil_r in Eh. cbn [app] in Ei1. rewrite <- Eh in *. rewrite from_be4_be4, to_int_id in Em by lia.
      destruct (recv_payload_ok (be4 (Z.of_nat (length str) + 4)) str rest eq_refl N Ls ps m1 0 inp1 Fp) as [s2 [m2 [inp2 [ps2 [E2 [H1 [H2 _]]]]]]]; auto.
      { destruct str; [tauto|simpl; lia]. }
      { rewrite Em. lia. }
      rewrite E2. exists s2, m2, inp2, hs, ps2. split; auto. split; auto. intros _ B. apply H2. lia.
Qed.
Lemma alloc_hdr : hdr_inv msg_alloc [].
Proof. repeat split; simpl; lia. Qed.

(** ** Safety for any peer *)
Definition sane (ps : list (os * list char)) : Prop := Forall (fun p => length (snd p) = TCP_BUF_SIZE) ps.
Lemma recv_payload_safe L : Z.of_nat L < 2 ^ 31 -> forall ps m l t inp, sane ps -> pay_inv m l t -> mlen m = Z.of_nat L -> (t <= L)%nat -> exists s m' inp' ps', recv_payload ps m inp = Some (s, m', inp', ps') /\
  exists l' t', pay_inv m' l' t'.
Proof.
  intros LL. induction ps as [|[o junk] ps IH]; intros m l t inp F I Em Lt; cbn [recv_payload]; [do 4 eexists; split; [reflexivity|]; eauto|].
  inversion F as [|x y F1 F2]; subst x y. simpl in F1. destruct (read_payload_ok o junk m inp l t L I Em Lt LL F1) as [s [m1 [inp1 [E P]]]]. 
  destruct s.
  - destruct P as [k [bs [_ [_ [_ [Lb [_ [PI [Em1 _]]]]]]]]]. rewrite E. eapply IH; eauto.
  - rewrite E. unfold read_payload in E. destruct (os_read o _ inp) as [bs|]; [|injection E as <- <-; do 4 eexists; split; [reflexivity|]; eauto].
    destruct (put_chars _ _ _); [|discriminate]. destruct bs; [discriminate|]. destruct (_ <=? _); [discriminate|]. destruct (mwrite _ _ _); [|discriminate]. destruct (str_at _ _); [|discriminate]. destruct (append_str _ _); [|discriminate].
    injection E as E _ _. destruct (_ =? _); discriminate.
  - rewrite E. unfold read_payload in E. destruct (os_read o _ inp) as [bs|]; [|discriminate].
    destruct (put_chars _ _ _); [|discriminate]. destruct bs; [injection E as <- <-; do 4 eexists; split; [reflexivity|]; eauto|]. destruct (_ <=? _); [discriminate|]. destruct (mwrite _ _ _); [|discriminate]. destruct (str_at _ _); [|discriminate]. destruct (append_str _ _); [|discriminate].
    injection E as E _ _. destruct (_ =? _); discriminate.
  - destruct P as [k [bs [_ [_ [_ [Lb [_ [PI [Em1 _]]]]]]]]]. rewrite E. do 4 eexists. split; [reflexivity|]. eauto.
Qed.
Lemma recv_safe hs : forall ps m got inp, sane ps -> hdr_inv m got ->
  (forall h tl, got ++ inp = h ++ tl -> length h = 4%nat -> 4 <= from_be4 h < 2 ^ 31) ->
  exists s m' inp' hs' ps', recv hs ps m inp = Some (s, m', inp', hs', ps') /\ (s = NWSuccess -> exists l t, pay_inv m' l t).
Proof.
  induction hs as [|o hs IH]; intros ps m got inp F I H; cbn [recv]; [do 5 eexists; split; [reflexivity|discriminate]|].
  destruct (read_header_ok o m inp got I) as [r [m1 [inp1 [E P]]]]. rewrite E. destruct r as [s|u].
  - destruct s; try (do 5 eexists; split; [reflexivity|discriminate]); [|destruct P].
    destruct P as [bs [_ [Hi Hv]]]. apply (IH ps m1 (got ++ bs)); auto. intros h tl Eh L. apply (H h tl); auto. rewrite Hi, <- Eh, app_assoc. auto.
  - destruct P as [bs [_ [Hi [L4 [PI Em]]]]]. destruct (H (got ++ bs) inp1) as [A1 A2]; auto; [rewrite Hi, app_assoc; auto|]. rewrite to_int_id in Em by lia.
    destruct (recv_payload_safe (Z.to_nat (from_be4 (got ++ bs))) ltac:(lia) ps m1 (got ++ bs) 4%nat inp1 F PI) as [s [m2 [inp2 [ps2 [E2 [l' [t' PI2]]]]]]]; [rewrite Em; lia|lia|].
    rewrite E2. do 5 eexists. split; [reflexivity|]. intros _. eauto.
Qed.
