(** * Proofs about searching perfect discrimination trees. *)
From Coq Require Import Permutation.
From Verif Require Import Terms Unify UnifyProofs MatchProofs PDTree PDTreeProofs.

(** ** binding states up to pointwise equality *)
Definition beq (s t : bstate) : Prop := trail s = trail t /\ forall x, bnd s x = bnd t x.
Lemma beq_refl s : beq s s.
Proof. split; auto. Qed.
Lemma beq_sym s t : beq s t -> beq t s.
Proof. intros [H1 H2]. split; auto. Qed.
Lemma beq_trans r s t : beq r s -> beq s t -> beq r t.
Proof. intros [H1 H2] [H3 H4]. split; [congruence|]. intros x. rewrite H2. auto. Qed.

Section Search.
  Context {A : Type}.
  Variables (aterm : A -> term) (aclause : A -> nat) (adate : A -> Z) (rank : key -> Z) (use_size use_age : bool).
  Variables (S : sorting) (pp : sym -> bool) (general : bool) (date : Z).
  Notation node := (@node A).
  Notation kids := (list (key * option node)).
  Notation vkids := (list (var * option node)).
  Notation sstate := (@sstate A).
  Notation frame := (@frame A).
  Notation verify := (verify aterm adate use_size use_age date).
  Notation var_try := (var_try S pp).
  Notation try_vars := (try_vars S pp).
  Notation enter := (enter general).
  Notation leaf_step := (leaf_step aterm adate use_size use_age S pp general date).
  Notation forward := (forward S pp general).
  Notation fwd_vars := (fwd_vars S pp general).
  Notation fwd_syms := (fwd_syms general).
  Notation find_leaf := (find_leaf aterm adate use_size use_age S pp general date).
  Notation next_demod := (next_demod aterm adate use_size use_age S pp general date).
  Notation collect := (collect aterm adate use_size use_age S pp general date).
  Notation ninv := (ninv aterm adate).

  (** ** the test at a variable node *)
  Lemma var_try_eq st x t : var_try st x t =
    if Nat.eqb (vsort S x) (tsort S t) then
      match bnd st x with
      | Some u => if term_eqb u t then Some st else None
      | None => if qpredpos pp t then None else Some (add_binding st x t)
      end
    else None.
  Proof.
    unfold PDTree.var_try. destruct (Nat.eqb (vsort S x) (tsort S t)) eqn:Es; auto. destruct (bnd st x) eqn:Eb; auto.
    unfold smatch. pose proof (stdweight_pos t) as Hp. cbn [stdweight isVar].
    replace (stdweight t <? 1)%Z with false by (symmetry; apply Z.ltb_ge; lia). rewrite andb_true_r. simpl orb.
    destruct (qpredpos pp t) eqn:Eq; auto. cbn [match_loop]. rewrite Es. simpl negb. cbv iota. rewrite Eb.
    replace (stdweight t <? 1 + (stdweight t - 1))%Z with false by (symmetry; apply Z.ltb_ge; lia). reflexivity.
  Qed.

  Lemma var_try_beq st st0 x t : beq st st0 ->
    match var_try st x t, var_try st0 x t with
    | Some s1, Some s2 => beq s1 s2 /\ beq (backtrack_to_pos s1 (length (trail st))) st0
    | None, None => True
    | _, _ => False
    end.
  Proof.
    intros [H1 H2]. rewrite !var_try_eq. rewrite <- H2. destruct (Nat.eqb _ _); auto.
    destruct (bnd st x) eqn:Eb.
    - destruct (term_eqb t0 t); auto. split; [split; auto|]. unfold backtrack_to_pos. rewrite Nat.sub_diag. split; auto.
    - destruct (qpredpos pp t); auto. split.
      + split; simpl; [congruence|]. intros y. unfold upd. destruct (Nat.eqb x y); auto.
      + unfold backtrack_to_pos. simpl length. replace (Datatypes.S (length (trail st)) - length (trail st)) with 1 by lia. simpl.
        split; simpl; auto. intros y. unfold upd. destruct (Nat.eqb_spec x y); auto. subst. rewrite <- H2. auto.
  Qed.
  Lemma backtrack_beq : forall k s t, beq s t -> beq (backtrack_n k s) (backtrack_n k t).
  Proof.
    induction k as [|k IH]; intros s t H; simpl; auto. apply IH. destruct H as [H1 H2]. unfold backtrack_single. rewrite <- H1.
    destruct (trail s) as [|x r] eqn:E; [split; congruence|]. split; simpl; auto. intros y. unfold upd. destruct (Nat.eqb x y); auto.
  Qed.
  Lemma backtrack_to_beq s t p : beq s t -> beq (backtrack_to_pos s p) (backtrack_to_pos t p).
  Proof. intros H. unfold backtrack_to_pos. destruct H as [H1 H2]. rewrite H1. apply backtrack_beq. split; auto. Qed.

  (** ** leaf visits: a recursive description of the order in which the search returns nodes *)
  Definition visit (c : node) (ts : list term) (st : bstate) : list (node * bstate) :=
    if negb (is_nil (n_entries c)) && is_nil ts then [(c, st)] else [].

  Fixpoint den (n : node) (ts : list term) (st : bstate) (w : Z) {struct n} : list (node * bstate) :=
    if verify n w then
      match ts with
      | [] => if n_leaf n then [(n, st)] else visit n [] st
      | t :: rest =>
          match n with
          | Node _ _ _ _ _ ks =>
              let vs :=
                (fix go (l : kids) : list (node * bstate) :=
                   match l with
                   | [] => []
                   | (KV x, Some c) :: r =>
                       match var_try st x t with
                       | Some st' => visit c rest st' ++ den c rest st' (w - (stdweight t - 1))
                       | None => []
                       end ++ go r
                   | (KV x, None) :: _ => []
                   | (KF _, _) :: r => go r
                   end) ks in
              let ss :=
                match t with
                | Var _ => []
                | Fun g a =>
                    (fix go (l : kids) : list (node * bstate) :=
                       match l with
                       | [] => []
                       | (k, o) :: r =>
                           if key_eqb (KF g) k
                           then match o with Some c => visit c (a ++ rest) st ++ den c (a ++ rest) st w | None => [] end
                           else go r
                       end) ks
                end in
              if general then ss ++ vs else vs ++ ss
          end
      end
    else [].

  Definition full (c : node) (ts : list term) (st : bstate) (w : Z) := visit c ts st ++ den c ts st w.
  Fixpoint denv (l : vkids) (t : term) (rest : list term) (st : bstate) (w : Z) : list (node * bstate) :=
    match l with
    | (x, Some c) :: r =>
        match var_try st x t with Some st' => full c rest st' (w - (stdweight t - 1)) | None => [] end ++ denv r t rest st w
    | _ => []
    end.
  Definition dens (ks : kids) (t : term) (rest : list term) (st : bstate) (w : Z) : list (node * bstate) :=
    match t with
    | Var _ => []
    | Fun g a => match kfind (KF g) ks with Some c => full c (a ++ rest) st w | None => [] end
    end.
  Lemma den_eq n ts st w : den n ts st w =
    if verify n w then
      match ts with
      | [] => if n_leaf n then [(n, st)] else visit n [] st
      | t :: rest => if general then dens (n_kids n) t rest st w ++ denv (valts n) t rest st w
                     else denv (valts n) t rest st w ++ dens (n_kids n) t rest st w
      end
    else [].
  Proof.
    destruct n as [sz ag rc lf es ks]. cbn [den]. destruct (verify _ w); auto. destruct ts as [|t rest]; auto.
    assert (EV : (fix go (l : kids) : list (node * bstate) :=
                   match l with
                   | [] => []
                   | (KV x, Some c) :: r =>
                       match var_try st x t with
                       | Some st' => visit c rest st' ++ den c rest st' (w - (stdweight t - 1))
                       | None => []
                       end ++ go r
                   | (KV x, None) :: _ => []
                   | (KF _, _) :: r => go r
                   end) ks = denv (vlist ks) t rest st w).
    { clear. induction ks as [|[[f|x] [c|]] r IH]; simpl; auto. rewrite IH. reflexivity. }
    assert (ES : match t with
                | Var _ => []
                | Fun g a =>
                    (fix go (l : kids) : list (node * bstate) :=
                       match l with
                       | [] => []
                       | (k, o) :: r =>
                           if key_eqb (KF g) k
                           then match o with Some c => visit c (a ++ rest) st ++ den c (a ++ rest) st w | None => [] end
                           else go r
                       end) ks
                end = dens ks t rest st w).
    { clear. unfold dens. destruct t as [|g a]; auto. induction ks as [|[k o] r IH]; auto. cbn [kfind].
      destruct (key_eqb (KF g) k); auto. }
    rewrite EV, ES. unfold valts. reflexivity.
  Qed.

  (** ** runs of the search loop *)
  Inductive star : sstate -> bstate -> list (node * bstate) -> sstate -> bstate -> Prop :=
  | star_refl : forall s st, star s st [] s st
  | star_step : forall s st s1 st1 outs s2 st2, leaf_step s st = Some (false, s1, st1) -> star s1 st1 outs s2 st2 -> star s st outs s2 st2
  | star_out : forall s st s1 st1 f fs outs s2 st2, leaf_step s st = Some (true, s1, st1) -> frames s1 = f :: fs ->
      star s1 st1 outs s2 st2 -> star s st ((fn f, st1) :: outs) s2 st2.

  Lemma star_trans s1 t1 o1 s2 t2 o2 s3 t3 : star s1 t1 o1 s2 t2 -> star s2 t2 o2 s3 t3 -> star s1 t1 (o1 ++ o2) s3 t3.
  Proof.
    induction 1; intros H2; simpl; auto.
    - eapply star_step; eauto.
    - eapply star_out; eauto.
  Qed.

  Definition osame (a b : node * bstate) : Prop := fst a = fst b /\ beq (snd a) (snd b).
  Definition osames := Forall2 osame.
  Lemma osames_app a b c d : osames a b -> osames c d -> osames (a ++ c) (b ++ d).
  Proof. apply Forall2_app. Qed.

  Definition mk (F : list frame) (ts pr : list term) (w : Z) so : sstate := {| frames := F; tstack := ts; tproc := pr; tweight := w; store := so |}.

  Definition closed (f f' : frame) (w : Z) : Prop :=
    fn f' = fn f /\ fvar f' = fvar f /\ fprev f' = fprev f /\ (verify (fn f) w = false \/ fstt f' = 2).

  (** exploring a node that has just been entered *)
  Definition explores (n : node) : Prop :=
    forall v prev F ts pr w so st st0, beq st st0 ->
      exists outs st' f', star (mk (enter n v prev :: F) ts pr w so) st outs (mk (f' :: F) ts pr w so) st' /\
        closed (enter n v prev) f' w /\ beq st' st0 /\ osames outs (den n ts st0 w).

  (** taking a symbol branch and coming back *)
  Lemma sym_branch c g a rest f F pr w so st st0 s0 : explores c -> beq st st0 ->
    leaf_step s0 st = Some (negb (is_nil (n_entries c)) && is_nil (a ++ rest), mk (enter c None (length (trail st)) :: f :: F) (a ++ rest) (Fun g a :: pr) w so, st) ->
    exists outs st', star s0 st outs (mk (f :: F) (Fun g a :: rest) pr w so) st' /\ beq st' st0 /\ osames outs (full c (a ++ rest) st0 w).
  Proof.
    intros X B L. destruct (X None (length (trail st)) (f :: F) (a ++ rest) (Fun g a :: pr) w so st st0 B) as [outs [st' [f' [R [C [B' O]]]]]].
    assert (Bk : leaf_step (mk (f' :: f :: F) (a ++ rest) (Fun g a :: pr) w so) st' = Some (false, mk (f :: F) (Fun g a :: rest) pr w so, st')).
    { destruct C as [C1 [C2 [C3 C4]]]. unfold PDTree.leaf_step. simpl frames. cbv iota. simpl tweight.
      rewrite C1. replace (negb (verify (fn (enter c None (length (trail st)))) w) || Nat.eqb (fstt f') 2) with true
        by (destruct C4 as [C4|C4]; rewrite C4; simpl; rewrite ?orb_true_r; auto).
      unfold pdt_backtrack. simpl. rewrite C2. simpl. rewrite app_length. replace (length a + length rest <? length a) with false by (symmetry; apply Nat.ltb_ge; lia).
      rewrite skipn_app, skipn_all, Nat.sub_diag. reflexivity. }
    unfold full, visit. destruct (negb (is_nil (n_entries c)) && is_nil (a ++ rest)).
    - exists ((c, st) :: outs ++ []), st'. split; [|split; [auto|]].
      + eapply (star_out _ _ _ _ (enter c None (length (trail st)))); [exact L|reflexivity|]. eapply star_trans; [exact R|]. eapply star_step; [exact Bk|apply star_refl].
      + rewrite app_nil_r. constructor; [split; auto|exact O].
    - exists (outs ++ []), st'. split; [|split; [auto|rewrite app_nil_r; exact O]].
      eapply star_step; [exact L|]. eapply star_trans; [exact R|]. eapply star_step; [exact Bk|apply star_refl].
  Qed.

  (** taking a variable branch and coming back *)
  Lemma var_branch c x t rest f F pr w so st st0 st1 s0 : explores c -> beq st st0 -> var_try st x t = Some st1 ->
    leaf_step s0 st = Some (negb (is_nil (n_entries c)) && is_nil rest, mk (enter c (Some x) (length (trail st)) :: f :: F) rest (t :: pr) (w - (stdweight t - 1)) so, st1) ->
    exists outs st' st1', var_try st0 x t = Some st1' /\ star s0 st outs (mk (f :: F) (t :: rest) pr w so) st' /\ beq st' st0 /\
      osames outs (full c rest st1' (w - (stdweight t - 1))).
  Proof.
    intros X B V L. pose proof (var_try_beq st st0 x t B) as VB. rewrite V in VB. destruct (var_try st0 x t) as [st1'|]; [|destruct VB].
    destruct VB as [VB1 VB2].
    destruct (X (Some x) (length (trail st)) (f :: F) rest (t :: pr) (w - (stdweight t - 1))%Z so st1 st1' VB1) as [outs [st' [f' [R [C [B' O]]]]]].
    assert (Bk : leaf_step (mk (f' :: f :: F) rest (t :: pr) (w - (stdweight t - 1)) so) st' = Some (false, mk (f :: F) (t :: rest) pr w so, backtrack_to_pos st' (length (trail st)))).
    { destruct C as [C1 [C2 [C3 C4]]]. unfold PDTree.leaf_step. simpl frames. cbv iota. simpl tweight.
      rewrite C1. replace (negb (verify (fn (enter c (Some x) (length (trail st)))) (w - (stdweight t - 1))) || Nat.eqb (fstt f') 2) with true
        by (destruct C4 as [C4|C4]; rewrite C4; simpl; rewrite ?orb_true_r; auto).
      unfold pdt_backtrack. simpl. rewrite C2, C3. simpl. replace (w - (stdweight t - 1) + (stdweight t - 1))%Z with w by lia. reflexivity. }
    assert (B2 : beq (backtrack_to_pos st' (length (trail st))) st0).
    { eapply beq_trans; [|exact VB2]. eapply beq_trans; [apply backtrack_to_beq; exact B'|]. apply backtrack_to_beq. apply beq_sym. exact VB1. }
    unfold full, visit. destruct (negb (is_nil (n_entries c)) && is_nil rest).
    - exists ((c, st1) :: outs ++ []), (backtrack_to_pos st' (length (trail st))), st1'. split; [auto|]. split; [|split; [auto|]].
      + eapply (star_out _ _ _ _ (enter c (Some x) (length (trail st)))); [exact L|reflexivity|]. eapply star_trans; [exact R|]. eapply star_step; [exact Bk|apply star_refl].
      + rewrite app_nil_r. constructor; [split; auto|exact O].
    - exists (outs ++ []), (backtrack_to_pos st' (length (trail st))), st1'. split; [auto|]. split; [|split; [auto|rewrite app_nil_r; exact O]].
      eapply star_step; [exact L|]. eapply star_trans; [exact R|]. eapply star_step; [exact Bk|apply star_refl].
  Qed.

  (** the state in which the variable alternatives are tried: 1 if the symbols come first, 0 otherwise *)
  Definition vphase : nat := if general then 1 else 0.
  Definition vframe (n : node) v prev (l : vkids) : frame := {| fn := n; fvar := v; fstt := vphase; fvs := l; fprev := prev |}.

  Lemma vstep_found n v prev F t rest pr w so st l x c st1 r : verify n w = true -> try_vars st t l = Some (x, c, st1, r) ->
    leaf_step (mk (vframe n v prev l :: F) (t :: rest) pr w so) st =
    Some (negb (is_nil (n_entries c)) && is_nil rest,
          mk (enter c (Some x) (length (trail st)) :: vframe n v prev r :: F) rest (t :: pr) (w - (stdweight t - 1)) so, st1).
  Proof.
    intros V T. unfold PDTree.leaf_step. simpl frames. cbv iota. simpl fn. simpl tweight. rewrite V. simpl negb.
    replace (Nat.eqb (fstt (vframe n v prev l)) 2) with false by (simpl; unfold vphase; destruct general; auto).
    simpl orb. cbv iota. rewrite andb_false_r. unfold PDTree.forward. simpl tstack. cbv iota. unfold vphase. cbn [fstt vframe].
    unfold vphase. destruct general; unfold PDTree.fwd_vars; cbn [fvs vframe]; rewrite T; reflexivity.
  Qed.

  Lemma try_vars_spec st t : forall l, match try_vars st t l with
    | Some (x, c, st1, r) => exists l1, l = l1 ++ (x, Some c) :: r /\ var_try st x t = Some st1 /\
                             (forall y o, In (y, o) l1 -> exists d, o = Some d /\ var_try st y t = None)
    | None => forall rest st0 w, beq st st0 -> denv l t rest st0 w = []
    end.
  Proof.
    induction l as [|[x [c|]] r IH]; simpl; auto.
    destruct (var_try st x t) as [st1|] eqn:V.
    - exists []. split; auto. split; auto. intros ? ? [].
    - destruct (try_vars st t r) as [[[[y d] st2] r2]|].
      + destruct IH as [l1 [-> [V2 H]]]. exists ((x, Some c) :: l1). split; auto. split; auto. intros z o [E|Hi]; [inversion E; subst; eauto|eauto].
      + intros rest st0 w B. pose proof (var_try_beq st st0 x t B) as VB. rewrite V in VB. destruct (var_try st0 x t); [destruct VB|]. simpl. eauto.
  Qed.
  Lemma denv_skip st st0 t rest w : beq st st0 -> forall (l1 : vkids) l, (forall y o, In (y, o) l1 -> exists d, o = Some d /\ var_try st y t = None) ->
    denv (l1 ++ l) t rest st0 w = denv l t rest st0 w.
  Proof.
    intros B. induction l1 as [|[y o] l1 IH]; simpl; auto. intros l H. destruct (H y o (or_introl eq_refl)) as [d [-> V]].
    pose proof (var_try_beq st st0 y t B) as VB. rewrite V in VB. destruct (var_try st0 y t); [destruct VB|]. simpl. apply IH. eauto.
  Qed.

  Lemma vars_run n v prev F t rest pr w so st0 (tail : list (node * bstate)) (f' : frame) :
    verify n w = true ->
    (forall l st, beq st st0 -> try_vars st t l = None ->
       exists outs st', star (mk (vframe n v prev l :: F) (t :: rest) pr w so) st outs (mk (f' :: F) (t :: rest) pr w so) st' /\
         beq st' st0 /\ osames outs tail) ->
    forall m l st, length l <= m -> (forall x c, In (x, Some c) l -> explores c) -> beq st st0 ->
      exists outs st', star (mk (vframe n v prev l :: F) (t :: rest) pr w so) st outs (mk (f' :: F) (t :: rest) pr w so) st' /\
        beq st' st0 /\ osames outs (denv l t rest st0 w ++ tail).
  Proof.
    intros V T. induction m as [|m IH]; intros l st Len X B.
    - destruct l; [|simpl in Len; lia]. simpl. apply T; auto.
    - pose proof (try_vars_spec st t l) as TS. destruct (try_vars st t l) as [[[[x c] st1] r]|] eqn:E.
      + destruct TS as [l1 [-> [V1 H1]]].
        pose proof (vstep_found n v prev F t rest pr w so st _ x c st1 r V E) as L.
        destruct (var_branch c x t rest (vframe n v prev r) F pr w so st st0 st1 _ ltac:(eapply X; apply in_or_app; simpl; eauto) B V1 L)
          as [o1 [st' [st1' [V1' [R1 [B1 O1]]]]]].
        destruct (IH r st') as [o2 [st'' [R2 [B2 O2]]]]; auto.
        { rewrite app_length in Len. simpl in Len. lia. }
        { intros y d Hy. apply (X y d). apply in_or_app. simpl. auto. }
        exists (o1 ++ o2), st''. split; [eapply star_trans; [exact R1|exact R2]|]. split; auto.
        rewrite (denv_skip st st0 t rest w B l1 _ H1). simpl. rewrite V1', <- app_assoc. apply osames_app; auto.
      + rewrite (TS rest st0 w B). apply T; auto.
  Qed.

  Lemma explores_all : forall n, explores n.
  Proof.
    induction n as [sz ag rc lf es ks IH] using node_ind'. set (n := Node sz ag rc lf es ks) in *.
    intros v prev F ts pr w so st st0 B. rewrite den_eq.
    destruct (verify n w) eqn:V.
    2:{ exists [], st, (enter n v prev). split; [apply star_refl|]. split; [|split; [auto|constructor]]. split; [auto|]. split; [auto|]. split; [auto|]. left. exact V. }
    destruct ts as [|t rest].
    - exists (if n_leaf n then [(n, st)] else visit n [] st), st, {| fn := n; fvar := v; fstt := 2; fvs := if n_leaf n then fvs (enter n v prev) else []; fprev := prev |}.
      split; [|split; [|split; [auto|]]].
      + unfold visit. simpl is_nil. rewrite andb_true_r.
        assert (L : leaf_step (mk (enter n v prev :: F) [] pr w so) st =
                    Some (n_leaf n || negb (is_nil (n_entries n)), mk ({| fn := n; fvar := v; fstt := 2; fvs := if n_leaf n then fvs (enter n v prev) else []; fprev := prev |} :: F) [] pr w so, st)).
        { unfold PDTree.leaf_step. simpl frames. cbv iota. simpl fn. simpl tweight. rewrite V. simpl fstt. cbn [Nat.eqb negb orb].
          simpl tstack. simpl is_nil. rewrite andb_true_r. destruct (n_leaf n); [reflexivity|]. unfold PDTree.forward. simpl. rewrite andb_true_r. reflexivity. }
        destruct (n_leaf n).
        * eapply (star_out _ _ _ _ {| fn := n; fvar := v; fstt := 2; fvs := _; fprev := prev |}); [exact L|reflexivity|apply star_refl].
        * cbn [orb] in L. change (n_entries n) with es in *. destruct (is_nil es); cbn [negb andb] in *.
          -- eapply star_step; [exact L|apply star_refl].
          -- eapply (star_out _ _ _ _ {| fn := n; fvar := v; fstt := 2; fvs := _; fprev := prev |}); [exact L|reflexivity|apply star_refl].
      + split; [auto|]. split; [auto|]. split; [auto|]. right. reflexivity.
      + unfold visit. destruct (n_leaf n); [constructor; [split; auto|constructor]|]. destruct (_ && _); constructor; [split; auto|constructor].
    - assert (XV : forall x c, In (x, Some c) (valts n) -> explores c).
      { intros x c Hi. unfold valts, n in Hi. simpl in Hi. clear -IH Hi. induction ks as [|[[f|y] o] r IHr]; simpl in Hi; [tauto| |].
        - inversion IH; subst. apply IHr; auto.
        - inversion IH; subst. destruct Hi as [Hi|Hi]; [inversion Hi; subst; exact H1|apply IHr; auto]. }
      assert (XS : forall g c, kfind (KF g) ks = Some c -> explores c).
      { intros g c Hi. apply kfind_in in Hi. rewrite Forall_forall in IH. exact (IH _ Hi). }
      set (f2 := {| fn := n; fvar := v; fstt := 2; fvs := @nil (var * option node); fprev := prev |}).
      assert (Cl : closed (enter n v prev) f2 w).
      { split; [auto|]. split; [auto|]. split; [auto|]. right. reflexivity. }
      destruct (bool_dec general true) as [Eg|Eg]; [|apply not_true_is_false in Eg].
      + (* symbols first *)
        assert (VR : forall st, beq st st0 -> exists outs st', star (mk (vframe n v prev (valts n) :: F) (t :: rest) pr w so) st outs (mk (f2 :: F) (t :: rest) pr w so) st' /\
                  beq st' st0 /\ osames outs (denv (valts n) t rest st0 w)).
        { intros st1 B1. destruct (vars_run n v prev F t rest pr w so st0 [] f2 V) with (m := length (valts n)) (l := valts n) (st := st1) as [o [st' [R [B' O]]]]; auto.
          - intros l st2 B2 TN. exists [], st2. split; [|split; [auto|constructor]]. eapply star_step; [|apply star_refl].
            unfold PDTree.leaf_step. simpl frames. cbv iota. simpl fn. simpl tweight. rewrite V.
            unfold vframe, vphase. rewrite ?Eg. cbn [negb orb fstt Nat.eqb]. simpl tstack. simpl is_nil. rewrite andb_false_r.
            unfold PDTree.forward. simpl tstack. cbv iota. unfold vframe, vphase. rewrite ?Eg. cbn [fstt].
            unfold PDTree.fwd_vars. cbn [fvs]. rewrite TN. simpl. rewrite andb_false_r. reflexivity.
          - rewrite app_nil_r in O. exists o, st'. auto. }
        (* the first step *)
        assert (S0 : leaf_step (mk (enter n v prev :: F) (t :: rest) pr w so) st =
           match fwd_syms (mk (enter n v prev :: F) (t :: rest) pr w so) (vframe n v prev (valts n)) t rest st with
           | Some (s', st') => Some (match frames s' with f' :: _ => negb (is_nil (n_entries (fn f'))) && is_nil (tstack s') | [] => false end, s', st')
           | None => leaf_step (mk (vframe n v prev (valts n) :: F) (t :: rest) pr w so) st
           end).
        { unfold PDTree.leaf_step. simpl frames. cbv iota. simpl fn. simpl tweight. rewrite V. unfold vframe, vphase, PDTree.enter. rewrite ?Eg. cbn [negb orb fstt Nat.eqb].
          simpl tstack. simpl is_nil. rewrite andb_false_r. unfold PDTree.forward. simpl tstack. cbv iota. rewrite ?Eg. cbn [fstt fn with_st fvs fvar fprev].
          destruct (PDTree.fwd_syms true _ _ t rest st) as [[s' st']|]; [reflexivity|].
          unfold PDTree.fwd_vars. cbn [with_st fvs fn fvar fstt fprev]. destruct (try_vars st t (valts n)) as [[[[? ?] ?] ?]|]; reflexivity. }
        destruct (fwd_syms (mk (enter n v prev :: F) (t :: rest) pr w so) (vframe n v prev (valts n)) t rest st) as [[s' st']|] eqn:FS.
        * destruct t as [x|g a]; [discriminate|]. simpl in FS. destruct (kfind (KF g) ks) as [c|] eqn:K; [|discriminate].
          inversion FS; subst s' st'. clear FS. simpl in S0.
          destruct (sym_branch c g a rest (vframe n v prev (valts n)) F pr w so st st0 _ (XS _ _ K) B S0) as [o1 [st1 [R1 [B1 O1]]]].
          destruct (VR st1 B1) as [o2 [st2 [R2 [B2 O2]]]].
          exists (o1 ++ o2), st2, f2. split; [eapply star_trans; [exact R1|exact R2]|]. split; [exact Cl|]. split; auto.
          rewrite Eg. apply osames_app; auto. unfold dens. simpl. rewrite K. exact O1.
        * destruct (VR st B) as [o2 [st2 [R2 [B2 O2]]]]. exists o2, st2, f2. split; [|split; [exact Cl|split; [auto|rewrite Eg]]].
          -- inversion R2; subst.
             ++ exfalso. unfold vframe, vphase in H3. rewrite ?Eg in H3. discriminate.
             ++ eapply star_step; [rewrite S0; exact H|auto].
             ++ eapply star_out; [rewrite S0; exact H|exact H0|auto].
          -- assert (DS : dens (n_kids n) t rest st0 w = []); [|rewrite DS; exact O2].
             unfold dens. destruct t as [x|g a]; auto. simpl in FS. simpl. destruct (kfind (KF g) ks); [discriminate|auto].
      + (* variables first *)
        destruct (vars_run n v prev F t rest pr w so st0 (dens (n_kids n) t rest st0 w) f2 V) with (m := length (valts n)) (l := valts n) (st := st) as [o [st' [R [B' O]]]]; auto.
        * intros l st1 B1 TN.
          assert (S0 : leaf_step (mk (vframe n v prev l :: F) (t :: rest) pr w so) st1 =
             match fwd_syms (mk (vframe n v prev l :: F) (t :: rest) pr w so) f2 t rest st1 with
             | Some (s', st') => Some (match frames s' with f' :: _ => negb (is_nil (n_entries (fn f'))) && is_nil (tstack s') | [] => false end, s', st')
             | None => Some (false, mk (f2 :: F) (t :: rest) pr w so, st1)
             end).
          { unfold PDTree.leaf_step. simpl frames. cbv iota. simpl fn. simpl tweight. rewrite V. unfold vframe, vphase. rewrite ?Eg. cbn [negb orb fstt Nat.eqb].
            simpl tstack. simpl is_nil. rewrite andb_false_r. unfold PDTree.forward. simpl tstack. cbv iota. rewrite ?Eg. cbn [fstt fn with_st fvs fvar fprev].
            unfold PDTree.fwd_vars. cbn [fvs]. rewrite TN. change (with_st (with_st {| fn := n; fvar := v; fstt := 0; fvs := l; fprev := prev |} 1 []) 2 []) with f2.
            destruct (PDTree.fwd_syms false _ f2 t rest st1) as [[s' st']|]; [reflexivity|]. simpl. rewrite andb_false_r. reflexivity. }
          destruct (fwd_syms (mk (vframe n v prev l :: F) (t :: rest) pr w so) f2 t rest st1) as [[s' st']|] eqn:FS.
          -- destruct t as [x|g a]; [discriminate|]. simpl in FS. destruct (kfind (KF g) ks) as [c|] eqn:K; [|discriminate].
             inversion FS; subst s' st'. clear FS. simpl in S0.
             destruct (sym_branch c g a rest f2 F pr w so st1 st0 _ (XS _ _ K) B1 S0) as [o1 [st2 [R1 [B2 O1]]]].
             exists o1, st2. split; [exact R1|]. split; auto. unfold dens. simpl. rewrite K. exact O1.
          -- exists [], st1. split; [eapply star_step; [exact S0|apply star_refl]|]. split; auto.
             assert (DS : dens (n_kids n) t rest st0 w = []); [|rewrite DS; constructor].
             unfold dens. destruct t as [x|g a]; auto. simpl in FS. simpl. destruct (kfind (KF g) ks); [discriminate|auto].
        * exists o, st', f2. split; [|split; [exact Cl|split; [auto|rewrite Eg; exact O]]].
          replace (enter n v prev) with (vframe n v prev (valts n)); [exact R|]. unfold vframe, vphase, PDTree.enter. rewrite ?Eg. reflexivity.
  Qed.

  (** ** the whole retrieval *)
  Definition root_state := mk.
  Lemma root_run root t st : exists outs s' st', star (search_init general root t) st outs s' st' /\ frames s' = [] /\ store s' = None /\
    beq st' st /\ osames outs (den root [t] st (stdweight t)).
  Proof.
    destruct (explores_all root None 0 [] [t] [] (stdweight t) None st st (beq_refl st)) as [outs [st' [f' [R [C [B O]]]]]].
    exists (outs ++ []), (mk [] [t] [] (stdweight t) None), st'. split; [|split; [auto|split; [auto|split; [auto|rewrite app_nil_r; auto]]]].
    eapply star_trans; [exact R|]. eapply star_step; [|apply star_refl]. destruct C as [C1 [C2 [C3 C4]]].
    unfold PDTree.leaf_step. simpl frames. cbv iota. simpl tweight. rewrite C1.
    replace (negb (verify (fn (enter root None 0)) (stdweight t)) || Nat.eqb (fstt f') 2) with true
      by (destruct C4 as [C4|C4]; rewrite C4; simpl; rewrite ?orb_true_r; auto).
    unfold pdt_backtrack. simpl. rewrite C2. reflexivity.
  Qed.

  Lemma leaf_step_store s st b s1 st1 : leaf_step s st = Some (b, s1, st1) -> store s1 = store s.
  Proof.
    unfold PDTree.leaf_step. destruct (frames s) as [|f fs]; [discriminate|]. destruct (_ || _).
    - unfold pdt_backtrack. destruct (frames s) as [|g gs]; [discriminate|]. destruct (fvar g).
      + destruct (tproc s); [discriminate|]. intros H. inversion H; subst. reflexivity.
      + destruct gs; [intros H; inversion H; subst; reflexivity|]. destruct (tproc s); [discriminate|]. destruct (_ <? _); [discriminate|].
        intros H. inversion H; subst. reflexivity.
    - destruct (_ && _); [intros H; inversion H; subst; reflexivity|]. unfold PDTree.forward.
      destruct (tstack s) as [|t rest]; [intros H; inversion H; subst; reflexivity|].
      assert (FV : forall s0 f0 s' st', store s0 = store s -> fwd_vars s0 f0 t rest st = Some (s', st') -> store s' = store s).
      { intros s0 f0 s' st' E. unfold PDTree.fwd_vars. destruct (try_vars _ _ _) as [[[[? ?] ?] ?]|]; [|discriminate]. intros H; inversion H; subst. auto. }
      assert (FSy : forall s0 f0 s' st', store s0 = store s -> fwd_syms s0 f0 t rest st = Some (s', st') -> store s' = store s).
      { intros s0 f0 s' st' E. unfold PDTree.fwd_syms. destruct t; [discriminate|]. destruct (kfind _ _); [|discriminate]. intros H; inversion H; subst. auto. }
      destruct (bool_dec general true) as [Eg|Eg]; [|apply not_true_is_false in Eg]; rewrite ?Eg in *;
        destruct (fstt f) as [|[|k]]; cbn zeta.
      + destruct (PDTree.fwd_syms true s _ t rest st) as [[? ?]|] eqn:F1; [intros H; inversion H; subst; eapply FSy; eauto|].
        destruct (PDTree.fwd_vars S pp true s _ t rest st) as [[? ?]|] eqn:F2; intros H; inversion H; subst; [eapply FV; eauto|reflexivity].
      + destruct (PDTree.fwd_vars S pp true s _ t rest st) as [[? ?]|] eqn:F2; intros H; inversion H; subst; [eapply FV; eauto|reflexivity].
      + intros H; inversion H; subst; reflexivity.
      + destruct (PDTree.fwd_vars S pp false s _ t rest st) as [[? ?]|] eqn:F2; [intros H; inversion H; subst; eapply FV; eauto|].
        destruct (PDTree.fwd_syms false s _ t rest st) as [[? ?]|] eqn:F1; intros H; inversion H; subst; [eapply FSy; eauto|reflexivity].
      + destruct (PDTree.fwd_syms false s _ t rest st) as [[? ?]|] eqn:F1; intros H; inversion H; subst; [eapply FSy; eauto|reflexivity].
      + intros H; inversion H; subst; reflexivity.
  Qed.
  Lemma leaf_step_frames s st b s1 st1 : leaf_step s st = Some (b, s1, st1) -> frames s <> [].
  Proof. unfold PDTree.leaf_step. destruct (frames s); [discriminate|congruence]. Qed.

  Lemma star_find s st outs s2 st2 : star s st outs s2 st2 -> frames s2 = [] -> store s = None ->
    match outs with
    | [] => store s2 = None /\ exists N, forall n, N <= n -> find_leaf n s st = Some (s2, st2)
    | o :: r => exists s1 st1 f fs, frames s1 = f :: fs /\ store s1 = None /\ o = (fn f, st1) /\ star s1 st1 r s2 st2 /\
                  exists N, forall n, N <= n -> find_leaf n s st = Some (s1, st1)
    end.
  Proof.
    induction 1 as [s st|s st s1 st1 outs s2 st2 L _ IH|s st s1 st1 f fs outs s2 st2 L E R _]; intros H2 Hs.
    - split; auto. exists 0. intros n _. destruct n; simpl; rewrite H2; auto.
    - pose proof (leaf_step_store _ _ _ _ _ L) as E. pose proof (leaf_step_frames _ _ _ _ _ L) as Nf. specialize (IH H2 ltac:(congruence)).
      assert (G : forall n r, find_leaf n s1 st1 = r -> find_leaf (Datatypes.S n) s st = r).
      { intros n r Hr. simpl. destruct (frames s); [tauto|]. rewrite L. auto. }
      destruct outs as [|o r].
      + destruct IH as [I1 [N I2]]. split; auto. exists (Datatypes.S N). intros [|n] Hn; [lia|]. apply G. apply I2. lia.
      + destruct IH as [s3 [st3 [f [fs [I1 [I2 [I3 [I4 [N I5]]]]]]]]]. exists s3, st3, f, fs. repeat (split; [auto|]).
        exists (Datatypes.S N). intros [|n] Hn; [lia|]. apply G. apply I5. lia.
    - pose proof (leaf_step_store _ _ _ _ _ L) as E'. exists s1, st1, f, fs. split; [auto|]. split; [congruence|]. split; [auto|]. split; [auto|].
      exists 1. intros [|n] Hn; [lia|]. simpl. rewrite L. pose proof (leaf_step_frames _ _ _ _ _ L). destruct (frames s); [tauto|auto].
  Qed.

  Definition entries_of (o : node * bstate) : list (A * bstate) := map (fun e => (e, snd o)) (n_entries (fst o)).

  Definition settled (s : sstate) : Prop := store s = None \/ store s = Some [].

  Lemma with_store_mk s so : with_store s so = mk (frames s) (tstack s) (tproc s) (tweight s) so.
  Proof. reflexivity. Qed.

  Lemma find_leaf_mono : forall n s st r, find_leaf n s st = Some r -> find_leaf (Datatypes.S n) s st = Some r.
  Proof.
    induction n as [|n IH]; intros s st r H.
    - simpl in *. destruct (frames s); [auto|discriminate].
    - cbn [PDTree.find_leaf] in H. remember (Datatypes.S n) as m. cbn [PDTree.find_leaf]. destruct (frames s); auto.
      destruct (leaf_step s st) as [[[[|] s'] st']|]; subst m; auto.
  Qed.
  Lemma next_demod_mono : forall n s st r, next_demod n s st = Some r -> next_demod (Datatypes.S n) s st = Some r.
  Proof.
    induction n as [|n IH]; intros s st r H; [discriminate|]. cbn [PDTree.next_demod] in H. remember (Datatypes.S n) as m. cbn [PDTree.next_demod].
    destruct (frames s); auto. subst m.
    destruct (store s) as [[|e es]|]; auto; (destruct (find_leaf n (with_store s None) st) as [[s' st']|] eqn:F; [|discriminate]);
      rewrite (find_leaf_mono _ _ _ _ F); auto.
  Qed.
  Lemma collect_mono : forall n s st r, collect n s st = Some r -> collect (Datatypes.S n) s st = Some r.
  Proof.
    induction n as [|n IH]; intros s st r H; [discriminate|]. cbn [PDTree.collect] in H. remember (Datatypes.S n) as m. cbn [PDTree.collect]. subst m.
    destruct (next_demod n s st) as [[[[e|] s'] st']|] eqn:E; [| |discriminate]; rewrite (next_demod_mono _ _ _ _ E); auto.
    destruct (collect n s' st') as [[l st2]|] eqn:C; [|discriminate]. rewrite (IH _ _ _ C). auto.
  Qed.

  Lemma collect_run : forall outs s st s2 st2, star (with_store s None) st outs s2 st2 -> frames s2 = [] ->
    forall es, store s = Some es \/ (store s = None /\ es = []) -> (frames s <> [] \/ es = []) ->
    exists N, forall n, N <= n -> collect n s st = Some (map (fun e => (e, st)) es ++ flat_map entries_of outs, st2).
  Proof.
    induction outs as [|o outs IHo]; intros s st s2 st2 R F2 es.
    - revert s R. induction es as [|e es IHe]; intros s R Hs Hf.
      + destruct (star_find _ _ _ _ _ R F2 eq_refl) as [E2 [N FN]].
        exists (3 + N). intros [|[|[|n]]] Hn; try lia. cbn [PDTree.collect PDTree.next_demod].
        assert (Q : next_demod (Datatypes.S (Datatypes.S n)) s st = Some (None, s2, st2) \/ frames s = [] ).
        { cbn [PDTree.next_demod]. destruct (frames s) as [|f fs] eqn:Ef; [auto|left].
          assert (Q1 : find_leaf (Datatypes.S n) (with_store s None) st = Some (s2, st2)) by (apply FN; lia).
          destruct Hs as [Hs|[Hs _]]; rewrite Hs, Q1; rewrite F2; cbn [PDTree.next_demod]; rewrite ?F2; reflexivity. }
        cbn [PDTree.next_demod] in Q. destruct (frames s) as [|f fs] eqn:Ef.
        * assert (Es : st = st2); [|rewrite Es; reflexivity].
          inversion R as [|? ? ? ? ? ? ? H|? ? ? ? ? ? ? ? ? H]; subst; auto; exfalso; eapply (leaf_step_frames _ _ _ _ _ H); exact Ef.
        * destruct Q as [Q|Q]; [|discriminate]. rewrite Q. reflexivity.
      + destruct Hf as [Hf|Hf]; [|discriminate]. destruct Hs as [Hs|[Hs Hx]]; [|discriminate].
        destruct (IHe (with_store s (Some es))) as [N HN]; [exact R|left; reflexivity|left; exact Hf|].
        exists (2 + N). intros [|n] Hn; [lia|].
        assert (Q : next_demod n s st = Some (Some e, with_store s (Some es), st)).
        { destruct n as [|n]; [lia|]. cbn [PDTree.next_demod]. destruct (frames s) as [|f fs] eqn:Ef; [tauto|]. rewrite Hs. reflexivity. }
        cbn [PDTree.collect]. rewrite Q, HN by lia. reflexivity.
    - revert s R. induction es as [|e es IHe]; intros s R Hs Hf.
      + destruct (star_find _ _ _ _ _ R F2 eq_refl) as [s1 [st1 [f [fs [E1 [E2 [E3 [R2 [N FN]]]]]]]]].
        destruct (IHo (with_store s1 (Some (n_entries (fn f)))) st1 s2 st2) with (es := n_entries (fn f)) as [N2 HN2].
        * replace (with_store (with_store s1 (Some (n_entries (fn f)))) None) with s1; [exact R2|]. clear - E2. destruct s1 as [? ? ? ? so]. simpl in E2. subst so. reflexivity.
        * exact F2.
        * left; reflexivity.
        * left. simpl. rewrite E1. discriminate.
        * assert (Hs1 : frames s <> []).
          { intros Ef. inversion R; subst;
              match goal with H : PDTree.leaf_step _ _ _ _ _ _ _ _ _ _ = _ |- _ => eapply (leaf_step_frames _ _ _ _ _ H); exact Ef end. }
          exists (3 + N + N2). intros [|[|n]] Hn; try lia.
          assert (Q : next_demod (Datatypes.S n) s st = next_demod n (with_store s1 (Some (n_entries (fn f)))) st1).
          { cbn [PDTree.next_demod]. destruct (frames s) as [|g gs]; [tauto|].
            assert (Q1 : find_leaf n (with_store s None) st = Some (s1, st1)) by (apply FN; lia).
            destruct Hs as [Hs|[Hs _]]; rewrite Hs, Q1; rewrite E1; reflexivity. }
          cbn [PDTree.collect]. rewrite Q.
          specialize (HN2 (Datatypes.S n) ltac:(lia)). cbn [PDTree.collect] in HN2.
          destruct (next_demod n (with_store s1 (Some (n_entries (fn f)))) st1) as [[[[e|] s'] st']|]; [| |discriminate].
          -- destruct (collect n s' st') as [[l st3]|] eqn:C; [|discriminate]. apply collect_mono in C. cbn [PDTree.collect] in C. rewrite C. rewrite HN2.
             subst o. reflexivity.
          -- rewrite HN2. subst o. reflexivity.
      + destruct Hf as [Hf|Hf]; [|discriminate]. destruct Hs as [Hs|[Hs Hx]]; [|discriminate].
        destruct (IHe (with_store s (Some es))) as [N HN]; [exact R|left; reflexivity|left; exact Hf|].
        exists (2 + N). intros [|n] Hn; [lia|].
        assert (Q : next_demod n s st = Some (Some e, with_store s (Some es), st)).
        { destruct n as [|n]; [lia|]. cbn [PDTree.next_demod]. destruct (frames s) as [|f fs] eqn:Ef; [tauto|]. rewrite Hs. reflexivity. }
        cbn [PDTree.collect]. rewrite Q, HN by lia. reflexivity.
  Qed.
End Search.
