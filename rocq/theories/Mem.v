(** * Blocks of memory (SizeMalloc, BASICS/clb_memory.c) as used by the container models.
    A block is a list of cells; [None] in a cell means that it has not been written since it was allocated.
    Reading or writing outside the block, and using a cell that was not written, have no result ([None]). *)
From Coq Require Export List Arith Lia Bool.
Export ListNotations.

Definition mem (A : Type) := list (option A).

Definition malloc {A} (n : nat) : mem A := repeat None n.
Definition mread {A} (m : mem A) (i : nat) : option A :=
  match nth_error m i with Some (Some a) => Some a | _ => None end.
Definition mwrite {A} (m : mem A) (i : nat) (v : option A) : option (mem A) :=
  if i <? length m then Some (firstn i m ++ v :: skipn (S i) m) else None.

(** for(i=from; i<from+cnt; i++) dst[i+off] = src[i]; copying does not use the values *)
Fixpoint mcopy {A} (src : mem A) (cnt from off : nat) (dst : mem A) : option (mem A) :=
  match cnt with
  | 0 => Some dst
  | S c => match nth_error src from with
           | None => None
           | Some v => match mwrite dst (from + off) v with
                       | None => None
                       | Some d => mcopy src c (S from) off d
                       end
           end
  end.

(** ** Lemmas *)
Lemma malloc_len {A} n : length (@malloc A n) = n.
Proof. apply repeat_length. Qed.
Lemma mwrite_ok {A} (m : mem A) i v : i < length m -> exists m', mwrite m i v = Some m' /\ length m' = length m /\
  nth_error m' i = Some v /\ forall j, j <> i -> nth_error m' j = nth_error m j.
Proof.
  intros H. unfold mwrite. destruct (Nat.ltb_spec i (length m)) as [_|]; [|lia]. eexists. split; [reflexivity|]. split; [|split].
  - rewrite app_length, firstn_length. cbn [length]. rewrite skipn_length. lia.
  - rewrite nth_error_app2 by (rewrite firstn_length; lia). rewrite firstn_length, Nat.min_l by lia. rewrite Nat.sub_diag. reflexivity.
  - intros j Hj. destruct (Nat.lt_ge_cases j i).
    + rewrite nth_error_app1 by (rewrite firstn_length; lia). rewrite <- (firstn_skipn i m) at 2. rewrite nth_error_app1; auto. rewrite firstn_length. lia.
    + rewrite nth_error_app2 by (rewrite firstn_length; lia). rewrite firstn_length, Nat.min_l by lia.
      replace (j - i) with (S (j - S i)) by lia. cbn [nth_error]. rewrite <- (firstn_skipn (S i) m) at 2.
      rewrite nth_error_app2 by (rewrite firstn_length; lia). rewrite firstn_length, Nat.min_l by lia. reflexivity.
Qed.
Lemma mwrite_len {A} (m m' : mem A) i v : mwrite m i v = Some m' -> length m' = length m.
Proof.
  intros H. destruct (Nat.lt_ge_cases i (length m)) as [L|L].
  - destruct (mwrite_ok m i v L) as [m2 [E [E2 _]]]. congruence.
  - unfold mwrite in H. destruct (Nat.ltb_spec i (length m)); [lia|discriminate].
Qed.
Lemma mread_nth {A} (m : mem A) i a : mread m i = Some a <-> nth_error m i = Some (Some a).
Proof. unfold mread. destruct (nth_error m i) as [[x|]|]; split; intros H; inversion H; auto. Qed.
Lemma mcopy_ok {A} (src : mem A) off : forall cnt from dst, from + cnt <= length src -> from + cnt + off <= length dst ->
  exists d, mcopy src cnt from off dst = Some d /\ length d = length dst /\
    (forall i, from <= i < from + cnt -> nth_error d (i + off) = nth_error src i) /\
    (forall j, j < from + off \/ from + cnt + off <= j -> nth_error d j = nth_error dst j).
Proof.
  induction cnt as [|c IH]; intros from dst Hs Hd; simpl.
  - exists dst. split; auto. split; auto. split; [intros; lia|auto].
  - destruct (nth_error src from) as [v|] eqn:E; [|apply nth_error_None in E; lia].
    destruct (mwrite_ok dst (from + off) v) as [d1 [E1 [L1 [R1 R2]]]]; [lia|]. rewrite E1.
    destruct (IH (S from) d1) as [d [E2 [L2 [R3 R4]]]]; [lia|lia|]. exists d. split; auto. split; [lia|]. split.
    + intros i Hi. destruct (Nat.eq_dec i from) as [->|].
      * rewrite R4 by lia. rewrite E. exact R1.
      * apply R3. lia.
    + intros j Hj. rewrite R4 by lia. apply R2. lia.
Qed.
