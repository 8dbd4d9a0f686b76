(** * The parser comes to an end (proofs for C62) *)
From Coq Require Import Ascii String List Arith Bool Lia.
From Verif Require Import Tptp.
Import ListNotations.
Local Open Scope string_scope.
Local Open Scope nat_scope.
Local Open Scope list_scope.

Definition parser A := pstate -> list token -> parsed A.
Definition tm_body (pa : parser (list tm)) : parser tm := fun s l =>
  match parse_sym l with
  | None => Err
  | Some (x, KVar, l1) =>
      match l1 with
      | (_, Colon) :: l2 => match parse_sort l2 with
                            | Some (t, l3) => let '(v, b) := var_alloc_sort (bank s) x t in Ok (TV v) (set_bank s b) l3
                            | None => Err
                            end
      | _ => let '(v, b) := var_alloc (bank s) x in Ok (TV v) (set_bank s b) l1
      end
  | Some (f, k, l1) =>
      bind (match l1 with
            | (_, OpenBracket) :: l2 =>
                match k with
                | KNum => Err
                | _ => match l2 with (_, CloseBracket) :: l3 => Ok [] s l3 | _ => pa s l2 end
                end
            | _ => Ok [] s l1
            end)
           (fun args s l => match sig_insert s f (length args) with Some s => Ok (TF (raw f) args) s l | None => Err end)
  end.
Definition args_body (pt : parser tm) (pa : parser (list tm)) : parser (list tm) := fun s l =>
  bind (pt s l) (fun t s l =>
    match subterm_check t s with
    | None => Err
    | Some s =>
        match l with
        | (_, Comma) :: l' => bind (pa s l') (fun ts s l => Ok (t :: ts) s l)
        | (_, CloseBracket) :: l' => Ok [t] s l'
        | _ => Err
        end
    end).
Lemma parse_tm_S m s l : parse_tm (S m) s l = tm_body (parse_args m) s l. Proof. reflexivity. Qed.
Lemma parse_args_S m s l : parse_args (S m) s l = args_body (parse_tm m) (parse_args m) s l. Proof. reflexivity. Qed.

Definition equation_body (pt : parser tm) (t : tm) (s : pstate) (pos : bool) (l : list token) : parsed fm :=
  match subterm_check t s with
  | None => Err
  | Some s => bind (pt s l) (fun u s l => match subterm_check u s with Some s => Ok (Lit pos t u) s l | None => Err end)
  end.
Definition atom_body (pt : parser tm) : parser fm := fun s l =>
  bind (pt s l) (fun t0 s l =>
    let '(t, positive) := if tm_eqb t0 tfalse then (ttrue, false) else (t0, true) in
    match (match t with TV _ => Some false | TF f _ => role s f end) with
    | Some true => Ok (Lit positive t ttrue) s l
    | Some false => match l with
                    | (_, EqualSign) :: l' => equation_body pt t s positive l'
                    | (_, NegEqualSign) :: l' => equation_body pt t s (negb positive) l'
                    | _ => Err
                    end
    | None => match l with
              | (_, EqualSign) :: l' => equation_body pt t s positive l'
              | (_, NegEqualSign) :: l' => equation_body pt t s (negb positive) l'
              | _ => Ok (Lit positive t ttrue) (match t with TF f _ => declare s f true | TV _ => s end) l
              end
    end).
Lemma parse_atom_eq m s l : parse_atom m s l = atom_body (parse_tm m) s l. Proof. reflexivity. Qed.
Definition bare (l1 : list token) : bool :=
  match l1 with (_, o) :: (_, CloseBracket) :: _ => match operator o, o with Some _, _ | _, TildeSign => true | _, _ => false end | _ => false end.
Definition lit_body (pq : bool -> parser fm) (pf pl pat : parser fm) : parser fm := fun s l =>
  match l with
  | (_, Exclamation) :: l1 => accept OpenSquare s l1 (fun s l => pq true s l)
  | (_, QuestionMark) :: l1 => accept OpenSquare s l1 (fun s l => pq false s l)
  | (_, OpenBracket) :: l1 => if bare l1 then Err else bind (pf s l1) (fun f s l => accept CloseBracket s l (fun s l => Ok f s l))
  | (_, TildeSign) :: l1 => bind (pl s l1) (fun f s l => Ok (Not f) s l)
  | _ => pat s l
  end.
Definition absorb (pl : parser fm) (f : fm) : parser fm := fun s l =>
  match l with
  | (_, EqualSign) :: l' => bind (pl s l') (fun g s l => Ok (Bin Equiv f g) s l)
  | (_, NegEqualSign) :: l' => bind (pl s l') (fun g s l => Ok (Bin Xor f g) s l)
  | _ => Ok f s l
  end.
Definition rest_body (pq : bool -> parser fm) (pl : parser fm) (q : bool) : parser fm := fun s l =>
  match l with
  | (_, Comma) :: l' => pq q s l'
  | _ => accept CloseSquare s l (fun s l => accept Colon s l (fun s l => bind (pl s l) (fun f s l => absorb pl f s l)))
  end.
Definition q_body (pt : parser tm) (pq : bool -> parser fm) (pl : parser fm) (q : bool) : parser fm := fun s l =>
  bind (pt (set_bank s (push_env (bank s))) l) (fun t s l =>
    match t with
    | TF _ _ => Err
    | TV x => bind (rest_body pq pl q s l) (fun f s l => Ok (Qu q x f) (set_bank s (pop_env (bank s))) l)
    end).
Definition assoc_body (pl : parser fm) (pa : fm -> parser fm) (t : tok) (o : op) (f : fm) : parser fm := fun s l =>
  match l with
  | (_, u) :: l' => if tok_eqb t u then bind (pl s l') (fun g s l => pa (Bin o f g) s l) else Ok f s l
  | [] => Ok f s l
  end.
Definition fm_body (pl : parser fm) (pa : tok -> op -> fm -> parser fm) : parser fm := fun s l =>
  bind (pl s l) (fun f s l =>
    match l with
    | (_, Pipe) :: _ => pa Pipe Or f s l
    | (_, Ampersand) :: _ => pa Ampersand And f s l
    | (_, Application) :: _ => Err
    | (_, t) :: l' => match operator t with Some o => bind (pl s l') (fun g s l => Ok (Bin o f g) s l) | None => Ok f s l end
    | [] => Ok f s l
    end).
Lemma parse_lit_S m s l : parse_lit (S m) s l = lit_body (parse_q m) (parse_fm m) (parse_lit m) (parse_atom m) s l. Proof. reflexivity. Qed.
Lemma parse_q_S m q s l : parse_q (S m) q s l = q_body (parse_tm m) (parse_q m) (parse_lit m) q s l. Proof. reflexivity. Qed.
Lemma parse_assoc_S m t o f s l : parse_assoc (S m) t o f s l = assoc_body (parse_lit m) (parse_assoc m t o) t o f s l. Proof. reflexivity. Qed.
Lemma parse_fm_S m s l : parse_fm (S m) s l = fm_body (parse_lit m) (parse_assoc m) s l. Proof. reflexivity. Qed.

(** ** More fuel changes nothing *)
Definition le_p {A} (p q : parser A) : Prop := forall s l, p s l <> Fuel -> q s l = p s l.
Lemma bind_mono {A B} (r r' : parsed A) (k k' : A -> pstate -> list token -> parsed B) :
  (r <> Fuel -> r' = r) -> (forall a s l, k a s l <> Fuel -> k' a s l = k a s l) -> bind r k <> Fuel -> bind r' k' = bind r k.
Proof. intros H1 H2 H. destruct r as [a s l| |]; cbn in *; [rewrite H1 by discriminate; cbn; auto|rewrite H1 by discriminate; auto|easy]. Qed.
Ltac mono1 :=
  match goal with
  | |- _ -> bind _ _ = bind _ _ => refine (bind_mono _ _ _ _ _ _)
  | H : le_p ?p ?q |- ?p ?s ?l <> Fuel -> ?q ?s ?l = _ => exact (H s l)
  | H : forall q', le_p (?p q') (?p' q') |- ?p ?q ?s ?l <> Fuel -> _ => exact (H q s l)
  | H : forall a b c, le_p (?p a b c) (?p' a b c) |- ?p ?a ?b ?c ?s ?l <> Fuel -> _ => exact (H a b c s l)
  | |- ?x <> Fuel -> ?x = ?x => reflexivity
  | |- context [match ?x with _ => _ end] => destruct x
  | |- forall _, _ => intro
  end.
Lemma tm_mono pa pa' : le_p pa pa' -> le_p (tm_body pa) (tm_body pa').
Proof. intros H s l. unfold tm_body. repeat first [reflexivity|mono1]. Qed.
Lemma args_mono pt pt' pa pa' : le_p pt pt' -> le_p pa pa' -> le_p (args_body pt pa) (args_body pt' pa').
Proof. intros H H' s l. unfold args_body. repeat first [reflexivity|mono1]. Qed.
Lemma atom_mono pt pt' : le_p pt pt' -> le_p (atom_body pt) (atom_body pt').
Proof. intros H s l. unfold atom_body, equation_body. repeat first [reflexivity|mono1]. Qed.
Lemma lit_mono pq pq' pf pf' pl pl' pat pat' : (forall q, le_p (pq q) (pq' q)) -> le_p pf pf' -> le_p pl pl' -> le_p pat pat' -> le_p (lit_body pq pf pl pat) (lit_body pq' pf' pl' pat').
Proof. intros H1 H2 H3 H4 s l. unfold lit_body, accept. repeat first [reflexivity|mono1]. Qed.
Lemma absorb_mono pl pl' f : le_p pl pl' -> le_p (absorb pl f) (absorb pl' f).
Proof. intros H1 s l. unfold absorb. repeat first [reflexivity|mono1]. Qed.
Lemma rest_mono pq pq' pl pl' q : (forall q, le_p (pq q) (pq' q)) -> le_p pl pl' -> le_p (rest_body pq pl q) (rest_body pq' pl' q).
Proof. intros H1 H2 s l. unfold rest_body, accept, absorb. repeat first [reflexivity|mono1]. Qed.
Lemma q_mono pt pt' pq pq' pl pl' q : le_p pt pt' -> (forall q, le_p (pq q) (pq' q)) -> le_p pl pl' -> le_p (q_body pt pq pl q) (q_body pt' pq' pl' q).
Proof.
  intros H0 H1 H2 s l. pose proof (rest_mono pq pq' pl pl' q H1 H2) as H3. unfold q_body.
  refine (bind_mono _ _ _ _ _ _); [apply H0|]. intros [x|? ?] s0 l0; [|auto]. refine (bind_mono _ _ _ _ _ _); [apply H3|auto].
Qed.
Lemma assoc_mono pl pl' pa pa' t o f : le_p pl pl' -> (forall f, le_p (pa f) (pa' f)) -> le_p (assoc_body pl pa t o f) (assoc_body pl' pa' t o f).
Proof. intros H1 H2 s l. unfold assoc_body. repeat first [reflexivity|mono1]. Qed.
Lemma fm_mono pl pl' pa pa' : le_p pl pl' -> (forall t o f, le_p (pa t o f) (pa' t o f)) -> le_p (fm_body pl pa) (fm_body pl' pa').
Proof. intros H1 H2 s l. unfold fm_body. repeat first [reflexivity|mono1]. Qed.

Lemma tm_step n : le_p (parse_tm n) (parse_tm (S n)) /\ le_p (parse_args n) (parse_args (S n)).
Proof.
  induction n as [|n [IH1 IH2]]; [split; intros s l H; now cbn in H|]. split; intros s l.
  - rewrite (parse_tm_S n), (parse_tm_S (S n)). apply tm_mono; auto.
  - rewrite (parse_args_S n), (parse_args_S (S n)). apply args_mono; auto.
Qed.
Lemma fm_step n : le_p (parse_lit n) (parse_lit (S n)) /\ (forall q, le_p (parse_q n q) (parse_q (S n) q)) /\
  (forall t o f, le_p (parse_assoc n t o f) (parse_assoc (S n) t o f)) /\ le_p (parse_fm n) (parse_fm (S n)).
Proof.
  induction n as [|n (IH1 & IH2 & IH3 & IH4)]; [repeat split; intros; intros ? ? H; now cbn in H|]. destruct (tm_step n) as [T1 T2].
  repeat split.
  - intros s l. rewrite (parse_lit_S n), (parse_lit_S (S n)). apply lit_mono; auto. intros s' l'. rewrite !parse_atom_eq. apply atom_mono; auto.
  - intros q s l. rewrite (parse_q_S n), (parse_q_S (S n)). apply q_mono; auto.
  - intros t o f s l. rewrite (parse_assoc_S n), (parse_assoc_S (S n)). apply assoc_mono; auto.
  - intros s l. rewrite (parse_fm_S n), (parse_fm_S (S n)). apply fm_mono; auto.
Qed.
Lemma le_trans_n {A} (p : nat -> parser A) : (forall n, le_p (p n) (p (S n))) -> forall n m, n <= m -> le_p (p n) (p m).
Proof. intros H n m L. induction L as [|m L IH]; intros s l E; auto. rewrite (H m), (IH s l E); auto. rewrite (IH s l E); auto. Qed.
Lemma tm_more n m : n <= m -> le_p (parse_tm n) (parse_tm m).
Proof. apply (le_trans_n parse_tm); intros; apply tm_step. Qed.
Lemma args_more n m : n <= m -> le_p (parse_args n) (parse_args m).
Proof. apply (le_trans_n parse_args); intros; apply tm_step. Qed.
Lemma lit_more n m : n <= m -> le_p (parse_lit n) (parse_lit m).
Proof. apply (le_trans_n parse_lit); intros; apply fm_step. Qed.
Lemma q_more q n m : n <= m -> le_p (parse_q n q) (parse_q m q).
Proof. apply (le_trans_n (fun n => parse_q n q)); intros; apply fm_step. Qed.
Lemma assoc_more t o f n m : n <= m -> le_p (parse_assoc n t o f) (parse_assoc m t o f).
Proof. apply (le_trans_n (fun n => parse_assoc n t o f)); intros; apply fm_step. Qed.
Lemma fm_more n m : n <= m -> le_p (parse_fm n) (parse_fm m).
Proof. apply (le_trans_n parse_fm); intros; apply fm_step. Qed.

(** ** Enough fuel *)
Definition shorter {A} (d : nat) (p : parser A) : Prop := forall s l a s' l', p s l = Ok a s' l' -> length l' + d <= length l.
Lemma parse_sym_len l f k l' : parse_sym l = Some (f, k, l') -> length l' < length l.
Proof.
  unfold parse_sym. intros H.
  repeat match type of H with context [match ?x with _ => _ end] => destruct x; try discriminate H; try (inversion H; subst; cbn; lia) end.
Qed.
Lemma parse_sort_len l t l' : parse_sort l = Some (t, l') -> length l' < length l.
Proof. unfold parse_sort. destruct (parse_sym l) as [[[f []] l1]|] eqn:E; try discriminate. intros H. apply parse_sym_len in E. destruct l1 as [|[z []] l1]; inversion H; subst; auto. Qed.
Lemma tm_body_short pa : shorter 1 pa -> shorter 1 (tm_body pa).
Proof.
  intros Hp s l t s' l' H. unfold tm_body in H. destruct (parse_sym l) as [[[f k] l1]|] eqn:E; [|discriminate]. apply parse_sym_len in E.
  assert (W : forall r, bind r (fun args s l => match sig_insert s f (length args) with Some s => Ok (TF (raw f) args) s l | None => Err end) = Ok t s' l' ->
    exists a s1, r = Ok a s1 l').
  { intros [a s1 l2| |]; cbn; try discriminate. destruct (sig_insert s1 f (length a)); try discriminate. intros W; inversion W; subst. eauto. }
  assert (V : k <> KVar -> length l' + 1 <= length l).
  { intros Hk. assert (H' : exists a s1, (match l1 with
            | (_, OpenBracket) :: l2 => match k with KNum => Err | _ => match l2 with (_, CloseBracket) :: l3 => Ok [] s l3 | _ => pa s l2 end end
            | _ => Ok [] s l1 end) = Ok a s1 l') by (destruct k; [easy| |]; apply W, H).
    destruct H' as (a & s1 & H').
    assert (O : (length l' <= length l1) \/ exists z l2, l1 = z :: l2 /\ pa s l2 = Ok a s1 l').
    { destruct l1 as [|[z tk] l2]; [inversion H'; auto|].
      destruct tk; try (inversion H'; subst; cbn; left; lia). destruct k; [easy| |discriminate].
      destruct l2 as [|[z2 tk2] l3]; [right; eauto|]. destruct tk2; try (right; eauto; fail). inversion H'; subst. cbn; left; lia. }
    destruct O as [O|(z & l2 & -> & O)]; [lia|]. apply Hp in O. cbn in *. lia. }
  destruct k; [|apply V; discriminate|apply V; discriminate].
  assert (O : length l' <= length l1).
  { destruct l1 as [|[z tk] l2]; [destruct (var_alloc (bank s) f); inversion H; auto|].
    destruct tk; try (destruct (var_alloc (bank s) f); inversion H; subst; auto; fail).
    destruct (parse_sort l2) as [[u l3]|] eqn:E2; [|discriminate]. apply parse_sort_len in E2. destruct (var_alloc_sort (bank s) f u). inversion H; subst. cbn; lia. }
  lia.
Qed.
Lemma args_body_short pt pa : shorter 1 pt -> shorter 1 pa -> shorter 1 (args_body pt pa).
Proof.
  intros Ht Ha s l t s' l' H. unfold args_body in H. destruct (pt s l) as [u s1 l1| |] eqn:E; try discriminate. cbn in H. apply Ht in E.
  destruct (subterm_check u s1); [|discriminate]. destruct l1 as [|[z tk] l2]; [discriminate|]. destruct tk; try discriminate; [inversion H; subst; cbn in *; lia|].
  destruct (pa p l2) as [ts s2 l3| |] eqn:E2; try discriminate. inversion H; subst. apply Ha in E2. cbn in *; lia.
Qed.
Lemma tm_short n : shorter 1 (parse_tm n) /\ shorter 1 (parse_args n).
Proof.
  induction n as [|n [IH1 IH2]]; [split; intros ? ? ? ? ? H; discriminate|]. split; intros s l a s' l'.
  - rewrite parse_tm_S. apply tm_body_short; auto.
  - rewrite parse_args_S. apply args_body_short; auto.
Qed.
Lemma atom_short n : shorter 1 (parse_atom n).
Proof.
  intros s l a s' l' H. rewrite parse_atom_eq in H. unfold atom_body in H. destruct (tm_short n) as [T _].
  destruct (parse_tm n s l) as [u s1 l1| |] eqn:E; try discriminate. apply T in E. cbn [bind] in H.
  destruct (if tm_eqb u tfalse then _ else _) as [t pos].
  assert (Q : forall p x l2, equation_body (parse_tm n) t x p l2 = Ok a s' l' -> length l' <= length l2).
  { intros p x l2. unfold equation_body. destruct (subterm_check t x) as [x'|]; [|discriminate]. destruct (parse_tm n x' l2) as [v s2 l3| |] eqn:E2; try discriminate.
    apply T in E2. cbn. destruct (subterm_check v s2); [|discriminate]. intros W; inversion W; subst. lia. }
  destruct (match t with TV _ => _ | TF f _ => _ end) as [[]|].
  - inversion H; subst; lia.
  - destruct l1 as [|[z []] l2]; try discriminate; apply Q in H; cbn in *; lia.
  - destruct l1 as [|[z tk] l2]; [inversion H; subst; cbn in *; lia|]. destruct tk; try (inversion H; subst; cbn in *; lia); apply Q in H; cbn in *; lia.
Qed.
Lemma accept_ok {A} t s l (k : pstate -> list token -> parsed A) a s' l' : accept t s l k = Ok a s' l' -> exists z u l1, l = (z, u) :: l1 /\ tok_eqb t u = true /\ k s l1 = Ok a s' l'.
Proof. unfold accept. destruct l as [|[z u] l1]; [discriminate|]. destruct (tok_eqb t u) eqn:E; [|discriminate]. eauto 6. Qed.
Lemma fm_short n : shorter 1 (parse_lit n) /\ (forall q, shorter 1 (parse_q n q)) /\ (forall t o f, shorter 0 (parse_assoc n t o f)) /\ shorter 1 (parse_fm n).
Proof.
  induction n as [|n (IH1 & IH2 & IH3 & IH4)]; [repeat split; intros; intros ? ? ? ? ? H; discriminate|].
  repeat split.
  - intros s l a s' l' H. rewrite parse_lit_S in H. unfold lit_body in H. pose proof (atom_short n) as AS.
    destruct l as [|[z tk] l1]; [apply AS in H; auto|].
    destruct tk; try (apply AS in H; exact H).
    + destruct (bare l1); [discriminate|]. destruct (parse_fm n s l1) as [f s1 l2| |] eqn:E; try discriminate. cbn in H. apply accept_ok in H as (z' & u & l3 & -> & _ & H). inversion H; subst.
      apply IH4 in E. cbn in *; lia.
    + destruct (parse_lit n s l1) as [f s1 l2| |] eqn:E; try discriminate. inversion H; subst. apply IH1 in E. cbn; lia.
    + apply accept_ok in H as (z' & u & l3 & -> & _ & H). apply IH2 in H. cbn; lia.
    + apply accept_ok in H as (z' & u & l3 & -> & _ & H). apply IH2 in H. cbn; lia.
  - intros q s l a s' l' H. rewrite parse_q_S in H. unfold q_body in H. destruct (tm_short n) as [T _].
    destruct (parse_tm n _ l) as [t s1 l1| |] eqn:E; try discriminate. apply T in E. cbn in H. destruct t as [x|]; [|discriminate].
    destruct (rest_body (parse_q n) (parse_lit n) q s1 l1) as [f s2 l2| |] eqn:E2; try discriminate. inversion H; subst.
    assert (length l' <= length l1); [|lia]. unfold rest_body in E2.
    assert (O : (exists z l3, l1 = (z, Comma) :: l3 /\ parse_q n q s1 l3 = Ok f s2 l') \/ accept CloseSquare s1 l1 (fun s l => accept Colon s l (fun s l => bind (parse_lit n s l) (fun f s l => absorb (parse_lit n) f s l))) = Ok f s2 l').
    { destruct l1 as [|[z tk] l3]; [auto|]. destruct tk; auto. left; eauto. }
    destruct O as [(z & l3 & -> & O)|O]; [apply IH2 in O; cbn; lia|].
    apply accept_ok in O as (z & u & l3 & -> & _ & O). apply accept_ok in O as (z' & u' & l4 & -> & _ & O).
    destruct (parse_lit n s1 l4) as [f1 s3 l5| |] eqn:E3; try discriminate. apply IH1 in E3. cbn in O. unfold absorb in O. cbn.
    destruct l5 as [|[z5 tk] l6]; [inversion O; subst; cbn in *; lia|].
    destruct tk; try (inversion O; subst; cbn in *; lia); destruct (parse_lit n s3 l6) as [f6 s6 l7| |] eqn:E6; try discriminate; inversion O; subst; apply IH1 in E6; cbn in *; lia.
  - intros t o f s l a s' l' H. rewrite parse_assoc_S in H. unfold assoc_body in H. destruct l as [|[z u] l1]; [inversion H; auto|].
    destruct (tok_eqb t u); [|inversion H; subst; auto; lia]. destruct (parse_lit n s l1) as [g s1 l2| |] eqn:E; try discriminate. cbn in H. apply IH1 in E. apply IH3 in H. cbn; lia.
  - intros s l a s' l' H. rewrite parse_fm_S in H. unfold fm_body in H. destruct (parse_lit n s l) as [f s1 l1| |] eqn:E; try discriminate. cbn in H. apply IH1 in E.
    destruct l1 as [|[z tk] l2]; [inversion H; subst; auto|].
    destruct tk; try discriminate; try (cbn in H; inversion H; subst; auto; fail); try (apply IH3 in H; cbn in *; lia);
      cbn in H; destruct (parse_lit n s1 l2) as [g s2 l3| |] eqn:E2; try discriminate; inversion H; subst; apply IH1 in E2; cbn in *; lia.
Qed.

Lemma bind_fuel {A B} (r : parsed A) (k : A -> pstate -> list token -> parsed B) : r <> Fuel -> (forall a s l, r = Ok a s l -> k a s l <> Fuel) -> bind r k <> Fuel.
Proof. intros H1 H2. destruct r; cbn; auto. discriminate. Qed.
Lemma accept_fuel {A} t s l (k : pstate -> list token -> parsed A) : (forall z u l', l = (z, u) :: l' -> k s l' <> Fuel) -> accept t s l k <> Fuel.
Proof. intros H. unfold accept. destruct l as [|[z u] l']; [discriminate|]. destruct (tok_eqb t u); [eauto|discriminate]. Qed.
Lemma tm_enough n : (forall s l, length l + 1 <= n -> parse_tm n s l <> Fuel) /\ (forall s l, length l + 2 <= n -> parse_args n s l <> Fuel).
Proof.
  induction n as [|n [IH1 IH2]]; [split; intros; lia|]. split; intros s l H.
  - rewrite parse_tm_S. unfold tm_body. destruct (parse_sym l) as [[[f k] l1]|] eqn:E; [|discriminate]. apply parse_sym_len in E.
    destruct k.
    { destruct l1 as [|[z tk] l2]; [destruct (var_alloc (bank s) f); discriminate|]. destruct tk; try (destruct (var_alloc (bank s) f); discriminate).
      destruct (parse_sort l2) as [[u l3]|]; [|discriminate]. destruct (var_alloc_sort (bank s) f u); discriminate. }
    all: apply bind_fuel; [|intros a s1 l2 _; destruct (sig_insert s1 f (length a)); discriminate].
    all: destruct l1 as [|[z tk] l2]; [discriminate|]; destruct tk; try discriminate.
    destruct l2 as [|[z2 tk2] l3]; [apply IH2; cbn in *; lia|]. destruct tk2; try discriminate; apply IH2; cbn in *; lia.
  - rewrite parse_args_S. unfold args_body. apply bind_fuel; [apply IH1; lia|]. intros t s1 l1 E. apply (proj1 (tm_short n)) in E.
    destruct (subterm_check t s1); [|discriminate]. destruct l1 as [|[z tk] l2]; [discriminate|]. destruct tk; try discriminate.
    apply bind_fuel; [|discriminate]. apply IH2. cbn in *; lia.
Qed.
Lemma atom_enough n s l : length l + 1 <= n -> parse_atom n s l <> Fuel.
Proof.
  intros H. rewrite parse_atom_eq. unfold atom_body. destruct (tm_enough n) as [T _]. apply bind_fuel; [apply T; lia|]. intros u s1 l1 E. apply (proj1 (tm_short n)) in E.
  destruct (if tm_eqb u tfalse then _ else _) as [t pos].
  assert (Q : forall p x l2, length l2 <= length l -> equation_body (parse_tm n) t x p l2 <> Fuel).
  { intros p x l2 Hl. unfold equation_body. destruct (subterm_check t x) as [x'|]; [|discriminate]. apply bind_fuel; [apply T; lia|]. intros a s2 l3 _. destruct (subterm_check a s2); discriminate. }
  destruct (match t with TV _ => _ | TF f _ => _ end) as [[]|]; [discriminate| |];
    (destruct l1 as [|[z tk] l2]; [discriminate|]; destruct tk; try discriminate; apply Q; cbn in *; lia).
Qed.
Lemma fm_enough n : (forall s l, 2 * length l + 2 <= n -> parse_lit n s l <> Fuel) /\ (forall q s l, 2 * length l + 2 <= n -> parse_q n q s l <> Fuel) /\
  (forall t o f s l, 2 * length l + 2 <= n -> parse_assoc n t o f s l <> Fuel) /\ (forall s l, 2 * length l + 3 <= n -> parse_fm n s l <> Fuel).
Proof.
  induction n as [|n (IH1 & IH2 & IH3 & IH4)]; [repeat split; intros; lia|]. destruct (fm_short n) as (S1 & S2 & S3 & S4).
  repeat split.
  - intros s l H. rewrite parse_lit_S. unfold lit_body.
    destruct l as [|[z tk] l1]; [apply atom_enough; cbn in *; lia|]. cbn in H.
    destruct tk; try (apply atom_enough; cbn; lia).
    + destruct (bare l1); [discriminate|]. apply bind_fuel; [apply IH4; lia|]. intros. apply accept_fuel. discriminate.
    + apply bind_fuel; [apply IH1; lia|]. discriminate.
    + apply accept_fuel. intros z' u l' ->. cbn in H. apply IH2. lia.
    + apply accept_fuel. intros z' u l' ->. cbn in H. apply IH2. lia.
  - intros q s l H. rewrite parse_q_S. unfold q_body. apply bind_fuel; [apply tm_enough; lia|]. intros t s1 l1 E. apply (proj1 (tm_short n)) in E.
    destruct t as [x|]; [|discriminate]. apply bind_fuel; [|discriminate]. unfold rest_body.
    assert (O : accept CloseSquare s1 l1 (fun s l => accept Colon s l (fun s l => bind (parse_lit n s l) (fun f s l => absorb (parse_lit n) f s l))) <> Fuel).
    { apply accept_fuel. intros z u l2 ->. apply accept_fuel. intros z' u' l3 ->. cbn in E. apply bind_fuel; [apply IH1; lia|]. intros f s2 l4 E4. apply S1 in E4.
      unfold absorb. destruct l4 as [|[z4 tk] l5]; [discriminate|]. cbn in *. destruct tk; try discriminate; (apply bind_fuel; [apply IH1; lia|discriminate]). }
    destruct l1 as [|[z tk] l2]; [exact O|]. destruct tk; try exact O. apply IH2. cbn in *; lia.
  - intros t o f s l H. rewrite parse_assoc_S. unfold assoc_body. destruct l as [|[z u] l1]; [discriminate|]. destruct (tok_eqb t u); [|discriminate]. cbn in H.
    apply bind_fuel; [apply IH1; lia|]. intros g s1 l2 E. apply S1 in E. apply IH3. lia.
  - intros s l H. rewrite parse_fm_S. unfold fm_body. apply bind_fuel; [apply IH1; lia|]. intros f s1 l1 E. apply S1 in E.
    destruct l1 as [|[z tk] l2]; [discriminate|].
    destruct tk; try discriminate; try (apply IH3; cbn in *; lia); cbn [operator]; apply bind_fuel; try discriminate; apply IH1; cbn in *; lia.
Qed.
(** what some amount of fuel reads, [read] reads *)
Lemma read_fm n s x l f s' l' : tokenize x = Tokens l -> parse_fm n s l = Ok f s' l' -> read s x = Some (f, s', l').
Proof.
  intros Hx H. unfold read. rewrite Hx. set (m := 2 * length l + 3). assert (E : parse_fm m s l <> Fuel) by (apply fm_enough; lia).
  assert (parse_fm m s l = Ok f s' l') as ->; auto.
  rewrite <- H. destruct (Nat.le_ge_cases n m) as [L|L].
  - apply (fm_more n m L s l). congruence.
  - symmetry. apply (fm_more m n L s l E).
Qed.
