(** * Model of rewriting: CLAUSES/ccl_rewrite.c (forward rewriting with cached rewrite links and normal form dates, and the
      links made by backward rewriting), TERMS/cte_replace.c.

    Not modelled: rewriting in lambda terms and under binders (higher-order build), the proof output and derivation records,
    the SOS marks of links, the unindexed backward rewriting term_is_rewritable (ccl_rewrite.c:182-382). *)
From Verif Require Import Terms Unify Semantics Clauses MatchProofs Subsume.
Local Open Scope Z_scope.

(** A position in the index of a set of demodulators: the literal of a unit clause, the side that is the key, and the date
    of the clause (ClausePos_p, pos->clause->date). *)
Record dem := { dlit : eqn; dleft : bool; ddate : Z }.
(** ClausePosGetSide, ClausePosGetOtherSide, ccl_clausepos.h:176-215 *)
Definition dkey (d : dem) : term := if dleft d then lt (dlit d) else rt (dlit d).
Definition dother (d : dem) : term := if dleft d then rt (dlit d) else lt (dlit d).

(** TermCell.rw_data with the properties TPIsRewritten and TPIsRRewritten, TERMS/cte_termtypes.h:113-125, 310-326.  The C field
    is a union: either a rewrite link (replacement, demod = NULL or not) or two normal form dates. *)
Inductive rwcell :=
| Link (repl : term) (top : bool) (rr : bool)
| Dates (rule full : Z).
Definition store := term -> rwcell.
(** a fresh cell: TermDefaultCellAlloc, SysDateCreationTime *)
Definition no_links : store := fun _ => Dates 0 0.
Definition sset (W : store) (t : term) (c : rwcell) : store := fun u => if term_eqb t u then c else W u.

(** TermIsRewritten, TermIsTopRewritten, TermIsRRewritten, cte_termtypes.h:310-312 *)
Definition rewritten (c : rwcell) : bool := match c with Link _ _ _ => true | Dates _ _ => false end.
Definition top_rewritten (c : rwcell) : bool := match c with Link _ top _ => top | Dates _ _ => false end.
Definition r_rewritten (c : rwcell) : bool := match c with Link _ _ rr => rr | Dates _ _ => false end.
(** TermNFDate, cte_termtypes.h:321-322; the level is RuleRewrite = 1 or FullRewrite = 2, RewriteAdr(level) = level-1 *)
Definition nf_date (c : rwcell) (full : bool) : Z :=
  match c with Link _ _ _ => 0 | Dates a b => if full then b else a end.
(** TermAddRWLink, TERMS/cte_replace.c:66-87: TPIsRRewritten is only ever set. *)
Definition add_link (W : store) (t repl : term) (top always : bool) : store :=
  sset W t (Link repl top (always || r_rewritten (W t))).

(** SubstIsRenaming, TERMS/cte_subst.c:271-317 *)
Fixpoint nodup_b (l : list nat) : bool := match l with [] => true | x :: r => negb (existsb (Nat.eqb x) r) && nodup_b r end.
Definition bound_vars (st : bstate) : option (list var) :=
  fold_right (fun x acc => match bnd st x, acc with Some (Var y), Some l => Some (y :: l) | _, _ => None end) (Some []) (trail st).
Definition is_renaming (st : bstate) : bool := match bound_vars st with Some l => nodup_b l | None => false end.

Section Rewriting.
  Variable E : env.
  Variable gtb : term -> term -> bool.       (* TOGreater on the instantiated terms *)
  Variable strong : bool.                    (* ocb->rewrite_strong_rhs_inst *)
  Variable minterm : sort -> term.           (* OCBDesignatedMinTerm *)

  (** subst_complete_min_instance, ccl_rewrite.c:68-88 *)
  Definition complete_min (st : bstate) (r : term) : bstate :=
    fold_left (fun st x => match bnd st x with
                           | Some _ => st
                           | None => {| bnd := upd (bnd st) x (Some (minterm (vsort (srt E) x))); trail := x :: trail st |}
                           end) (vars r) st.
  (** TermHasUnboundVariables, TERMS/cte_termfunc.c:2206-2230 *)
  Definition has_unbound (st : bstate) (r : term) : bool :=
    existsb (fun x => match bnd st x with None => true | _ => false end) (vars r).
  (** a term with the bindings applied once: TBInsertInstantiatedFO, TERMS/cte_termbanks.c:1227-1269 and DEREF_ONCE *)
  Definition inst1 (st : bstate) (t : term) : term := app (as_subst (bnd st)) t.
  (** instance_is_rule, ccl_rewrite.c:106-124; [None] = false, else the substitution left behind *)
  Definition instance_is_rule (l r : term) (st : bstate) : option bstate :=
    let st := if strong then complete_min st r else st in
    if negb strong && has_unbound st r then None
    else if is_renaming st then None
    else if gtb (inst1 st l) (inst1 st r) then Some st else None.

  (** One demodulator tried on a term: matching (done by the tree, C21) and the tests of indexed_find_demodulator,
      ccl_rewrite.c:594-622; the result is the instance of the other side, ccl_rewrite.c:686.  The substitution is empty before
      every candidate (in C bindings added by subst_complete_min_instance can survive until the tree backtracks over a
      variable; this happens only with --strong-rw-inst). *)
  Definition try_demod (restricted : bool) (d : dem) (t : term) : option term :=
    match smatch (S (size (dkey d))) (srt E) (pp E) no_bindings (dkey d) t with
    | Success st =>
        if dleft d then
          match (if ori (dlit d) then Some st else instance_is_rule (dkey d) (dother d) st) with
          | Some st' => if negb restricted || negb (is_renaming st') then Some (inst1 st' (dother d)) else None
          | None => None
          end
        else match instance_is_rule (dkey d) (dother d) st with
             | Some st' => Some (inst1 st' (dother d))
             | None => None
             end
    | _ => None
    end.

  (** The demodulator sets: [enum i t date] are the positions delivered by PDTreeFindNextDemodulator for set [i] (0: rules, 1:
      unoriented equations), in the order of the tree traversal; [sdate i] is demodulators[i]->date. *)
  Variable enum : nat -> term -> Z -> list dem.
  Variable sdate : nat -> Z.
  Variable full : bool.                      (* desc->level: RuleRewrite or FullRewrite *)

  Definition level : nat := if full then 2%nat else 1%nat.
  (** desc->demod_date = ClauseSetListGetMaxDate(demods, level), ccl_clausesets.c:1350-1370 *)
  Definition demod_date : Z := if full then Z.max (sdate 0) (sdate 1) else sdate 0.

  (** indexed_find_demodulator, ccl_rewrite.c:559-650 *)
  Fixpoint find_demod (c : rwcell) (restricted : bool) (t : term) (ds : list dem) : option term :=
    match ds with
    | [] => None
    | d :: ds' =>
        if negb (nf_date c (negb (ori (dlit d))) <? ddate d) then find_demod c restricted t ds'
        else match try_demod restricted d t with
             | Some u => Some u
             | None => find_demod c restricted t ds'
             end
    end.
  (** rewrite_with_clause_set, ccl_rewrite.c:666-713 *)
  Definition rewrite_set (W : store) (i : nat) (t : term) (restricted : bool) : store * term :=
    match find_demod (W t) restricted t (enum i t (nf_date (W t) full)) with
    | Some u => if term_eqb u t then (W, t) else (add_link W t u true restricted, u)
    | None => (W, t)
    end.
  (** rewrite_with_clause_set_list, ccl_rewrite.c:730-762 *)
  Definition rewrite_list (W : store) (t : term) (restricted : bool) : store * term :=
    let (W1, t1) := if nf_date (W t) full <? sdate 0 then rewrite_set W 0 t restricted else (W, t) in
    if negb (term_eqb t1 t) || negb full then (W1, t1)
    else if nf_date (W1 t) full <? sdate 1 then rewrite_set W1 1 t restricted else (W1, t).

  (** term_follow_top_RW_chain, ccl_rewrite.c:141-166 *)
  Fixpoint follow (n : nat) (W : store) (t : term) (restricted : bool) : option term :=
    match n with
    | O => None
    | S m => match W t with
             | Link u true rr => if negb restricted || rr then follow m W u restricted else Some t
             | _ => Some t
             end
    end.

  (** term_li_normalform, ccl_rewrite.c:826-892 ([JNorm]) and its loop 850-875 ([JLoop]) with term_subterm_rewrite, ccl_rewrite.c:
      779-809.  [None]: more than [n] nested or repeated steps. *)
  Inductive job := JNorm (t : term) (restricted : bool) | JLoop (t : term) (restricted : bool).

  (** the argument loop of term_subterm_rewrite *)
  Definition norm_args (rec : store -> term -> option (store * term)) : store -> list term -> option (store * list term) :=
    fix go (W : store) (args : list term) :=
      match args with
      | [] => Some (W, [])
      | a :: args' => match rec W a with
                      | Some (W1, a') => match go W1 args' with
                                         | Some (W2, r) => Some (W2, a' :: r)
                                         | None => None
                                         end
                      | None => None
                      end
      end.

  (** the end of term_li_normalform, ccl_rewrite.c:883-891 *)
  Definition finish_nf (W : store) (t : term) (restricted : bool) : store :=
    match W t with
    | Dates _ f => if restricted then W else sset W t (Dates demod_date (if full then demod_date else f))
    | Link _ _ _ => W
    end.

  Fixpoint run (n : nat) (W : store) (j : job) : option (store * term) :=
    match n with
    | O => None
    | S m =>
        match j with
        | JNorm t restricted =>
            match follow m W t restricted with
            | None => None
            | Some t1 =>
                if negb (rewritten (W t1)) && negb (nf_date (W t1) full <? demod_date) then Some (W, t1)
                else match t1 with
                     | Var _ => Some (W, t1)
                     | Fun _ _ => run m W (JLoop t1 restricted)
                     end
            end
        | JLoop t restricted =>
            match t with
            | Var _ => Some (finish_nf W t restricted, t)
            | Fun f args =>
                match norm_args (fun W a => run m W (JNorm a false)) W args with
                | None => None
                | Some (W1, args') =>
                    let modified := negb (term_eqb (Fun f args') t) in
                    let t1 := Fun f args' in
                    let W2 := if modified then add_link W1 t t1 false true else W1 in
                    let r' := restricted && negb modified in
                    let W3 := if top_rewritten (W2 t1) then W2 else fst (rewrite_list W2 t1 r') in
                    match follow m W3 t1 r' with
                    | None => None
                    | Some t2 =>
                        if modified || negb (term_eqb t1 t2) then run m W3 (JLoop t2 restricted)
                        else Some (finish_nf W3 t1 restricted, t1)
                    end
                end
            end
        end
    end.

  (** TermComputeLINormalform, ccl_rewrite.c:1227-1239, with a level other than NoRewrite *)
  Definition normal_form (n : nat) (W : store) (t : term) (restricted : bool) : option (store * term) :=
    run n W (JNorm t restricted).

  (** eqn_li_normalform, ccl_rewrite.c:908-961; the boolean: MaxSide is among the sides that changed *)
  Definition eqn_nf (n : nat) (W : store) (e : eqn) (limited : bool) : option (store * eqn * bool) :=
    let restricted := maxi e && pos e && ori e && limited in
    match normal_form n W (lt e) restricted with
    | None => None
    | Some (W1, l) =>
        match normal_form n W1 (rt e) false with
        | None => None
        | Some (W2, r) =>
            let lch := negb (term_eqb l (lt e)) in
            let rch := negb (term_eqb r (rt e)) in
            Some (W2, mkeqn l r (pos e) (ori e) (uptodate e && negb lch && negb (rch && negb (ori e)))
                            (maxi e) (smaxi e) (sel e) (pseudo e),
                  lch || (rch && negb (ori e)))
        end
    end.

  (** the literal loop of ClauseComputeLINormalform, ccl_rewrite.c:1286-1301; [limited] is CPLimitedRW *)
  Fixpoint lits_nf (n : nat) (W : store) (c : clause) (limited : bool) : option (store * clause * bool) :=
    match c with
    | [] => Some (W, [], limited)
    | e :: c' =>
        match eqn_nf n W e limited with
        | None => None
        | Some (W1, e', mx) =>
            let limited' := limited && negb (mx && pos e && maxi e) in
            match lits_nf n W1 c' limited' with
            | None => None
            | Some (W2, c2, lim2) => Some (W2, e' :: c2, lim2)
            end
        end
    end.
  (** ClauseComputeLINormalform, ccl_rewrite.c:1255-1317: another round when CPLimitedRW was dropped *)
  Definition clause_nf (n : nat) (W : store) (c : clause) (limited : bool) : option (store * clause * bool) :=
    match lits_nf n W c limited with
    | None => None
    | Some (W1, c1, lim1) => if limited && negb lim1 then lits_nf n W1 c1 lim1 else Some (W1, c1, lim1)
    end.
  (** ClauseSetComputeLINormalform, ccl_rewrite.c:1334-1363, on the list of clauses with their CPLimitedRW *)
  Fixpoint set_nf (n : nat) (W : store) (cs : list (clause * bool)) : option (store * list (clause * bool)) :=
    match cs with
    | [] => Some (W, [])
    | (c, lim) :: cs' =>
        match clause_nf n W c lim with
        | None => None
        | Some (W1, c1, lim1) => match set_nf n W1 cs' with
                                 | None => None
                                 | Some (W2, r) => Some (W2, (c1, lim1) :: r)
                                 end
        end
    end.

  (** term_find_rw_clauses, ccl_rewrite.c:1050-1118: a new demodulator is tried on an indexed term; a success leaves a link.
      [left]: the key is the left side (the right side is tried for unoriented equations).  The clauses found are not modelled. *)
  Definition backward_link (W : store) (d : dem) (t : term) : store :=
    match smatch (S (size (dkey d))) (srt E) (pp E) no_bindings (dkey d) t with
    | Success st =>
        match (if ori (dlit d) then Some st else instance_is_rule (dkey d) (dother d) st) with
        | Some st' =>
            let always := negb (ori (dlit d)) || negb (is_renaming st') in
            if negb (rewritten (W t)) || always then
              let u := inst1 st' (dother d) in
              if term_eqb u t then W else add_link W t u true always
            else W
        | None => W
        end
    | _ => W
    end.
End Rewriting.

(** ** Specification *)

(** Terms of a sort discipline over a set of function symbols. *)
Definition good (S : sorting) (sg : sym -> bool) (t : term) : Prop :=
  wf S t /\ forall f a, In (Fun f a) (subterms t) -> sg f = true.

(** A reduction ordering on the good terms that contains the subterm relation. *)
Record simp_order (S : sorting) (sg : sym -> bool) (gt : term -> term -> Prop) : Prop := {
  so_wf : well_founded (fun a b => gt b a /\ good S sg a /\ good S sg b);
  so_trans : forall s t u, good S sg s -> good S sg t -> good S sg u -> gt s t -> gt t u -> gt s u;
  so_stable : forall sb s t, good S sg s -> good S sg t -> wfsubst S sb -> (forall x, good S sg (sb x)) ->
                gt s t -> gt (app sb s) (app sb t);
  so_mono : forall f l r s t, good S sg (Fun f (l ++ s :: r)) -> good S sg (Fun f (l ++ t :: r)) ->
                gt s t -> gt (Fun f (l ++ s :: r)) (Fun f (l ++ t :: r));
  so_sub : forall f a t, good S sg (Fun f a) -> In t a -> gt (Fun f a) t }.

(** A usable demodulator: a positive literal, oriented only if the left side is greater; keys on the right only for
    unoriented literals. *)
Record dem_ok (E : env) (sg : sym -> bool) (gt : term -> term -> Prop) (d : dem) : Prop := {
  do_pos : pos (dlit d) = true;
  do_l : good (srt E) sg (lt (dlit d));
  do_r : good (srt E) sg (rt (dlit d));
  do_sort : tsort (srt E) (lt (dlit d)) = tsort (srt E) (rt (dlit d));
  do_ori : ori (dlit d) = true -> gt (lt (dlit d)) (rt (dlit d)) /\ dleft d = true }.

(** [u] and [t] have the same value in every model of the equations of [ds]. *)
Definition equal_mod (E : env) (ds : list dem) (t u : term) : Prop :=
  forall M, model_ok (srt E) (dist E) M -> (forall d, In d ds -> clause_true (srt E) M [dlit d]) ->
    forall v, respects (srt E) M v -> eval M v t = eval M v u.

(** The demodulator rewrites the term at its top: an instance of the key that is greater than the instance of the other
    side.  For an unoriented equation the ordering check is the program's own; renamings of the key are never used, and
    (without strong instantiation) all variables of the other side must occur in the key. *)
Definition renames (vs : list var) (s : subst) : Prop :=
  (forall x, In x vs -> exists y, s x = Var y) /\ (forall x y, In x vs -> In y vs -> s x = s y -> x = y).
Definition reduces_top (E : env) (gtb : term -> term -> bool) (d : dem) (t : term) : Prop :=
  exists s, wfsubst (srt E) s /\ app s (dkey d) = t /\
    (ori (dlit d) = true \/
     (incl (vars (dother d)) (vars (dkey d)) /\ ~ renames (vars (dkey d)) s /\ gtb t (app s (dother d)) = true)).
Definition irreducible (E : env) (gtb : term -> term -> bool) (ds : list dem) (t : term) : Prop :=
  forall u d, In u (subterms t) -> In d ds -> ~ reduces_top E gtb d u.
