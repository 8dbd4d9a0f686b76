(** * Model of the replacement of injectivity axioms (CLAUSES/ccl_clausefunc.c:740-1057)
    First-order problems.  A clause f(..X..) != f(..Y..) | X = Y is replaced by inv(.., f(..X..)) = X with a new symbol inv. *)
From Verif Require Import Terms Unify Semantics Clauses Subsume Split Unfold.
Local Open Scope nat_scope.

(** the loop over the arguments, 827-862; [op] are the variables with TPOpFlag, [chk] those with TPCheckFlag; the result are the
    variables pushed on the stack, in order *)
Fixpoint inj_scan (ls rs op chk : list var) : option (list var) :=
  match ls, rs with
  | x :: ls', y :: rs' =>
      if Nat.eqb x y
      then if mem x chk then None
           else if mem x op then inj_scan ls' rs' op chk
                else option_map (cons x) (inj_scan ls' rs' (x :: op) chk)
      else if mem x chk || mem x op || mem y chk || mem y op then None
           else inj_scan ls' rs' op (x :: y :: chk)
  | _, _ => Some []
  end.
(** 799-812: the first position with the two variables of the positive literal, in either order *)
Fixpoint inj_index (x y : var) (ls rs : list var) : option nat :=
  match ls, rs with
  | a :: ls', b :: rs' => if Nat.eqb a x && Nat.eqb b y || Nat.eqb a y && Nat.eqb b x then Some 0 else option_map S (inj_index x y ls' rs')
  | _, _ => None
  end.

(** what is declared with the new symbol (SigGetNewTypedSkolem, 897, 915) *)
Record decl := mkdecl { dcl_sym : sym; dcl_args : list sort; dcl_res : sort }.

(** ClauseRecognizeInjectivity, 773-940, for the literals [p] and [q]; [internal] is the last code of the internal symbols; [n] the next
    code.  [isinj]: FPIsInjDefSkolem.  The test of the weights says that all arguments are variables. *)
Definition inj_clause (E : env) (internal : sym) (isinj : sym -> bool) (n : sym) (p q : eqn) : option (clause * decl) :=
  if equlit p && equlit q
  then match lt p, rt p, lt q, rt q with
       | Var x, Var y, Fun f ls, Fun g rs =>
           if negb (Nat.eqb x y) && Nat.eqb f g && (internal <? f) && negb (isinj f) && negb (Nat.eqb (length ls) 0)
           then match var_args ls, var_args rs with
                | Some lv, Some rv =>
                    match inj_index x y lv rv with
                    | Some i => match inj_scan lv rv [] [] with
                                | Some sv => Some ([eqn_alloc E (Fun n (map Var sv ++ [Fun f ls])) (Var (nth i lv 0)) true],
                                                   mkdecl n (map (vsort (srt E)) sv ++ [fres (srt E) f]) (vsort (srt E) x))
                                | None => None
                                end
                    | None => None
                    end
                | _, _ => None
                end
           else None
       | _, _, _, _ => None
       end
  else None.
Definition recognize_injectivity (E : env) (internal : sym) (isinj : sym -> bool) (n : sym) (c : clause) : option (clause * decl) :=
  match c with
  | [a; b] => if pos a && negb (pos b) then inj_clause E internal isinj n a b
              else if pos b && negb (pos a) then inj_clause E internal isinj n b a
              else None
  | _ => None
  end.
(** ClauseSetReplaceInjectivityDefs, 1018-1057.  [known tmp repl] stands for ClauseSetInjectivityIsDefined (955-1003): an arbitrary
    test.  The property FPIsInjDefSkolem holds for the symbols from [n0] on.  Result: the set, the archived clauses, the declared symbols. *)
Fixpoint replace_inj (E : env) (internal : sym) (known : list clause -> clause -> bool) (n0 n : sym) (set tmp : list clause)
    : list clause * list clause * list decl :=
  match set with
  | [] => (tmp, [], [])
  | c :: set' =>
      match recognize_injectivity E internal (fun f => n0 <=? f) n c with
      | Some (repl, dc) =>
          if known tmp repl
          then let '(r, a, ds) := replace_inj E internal known n0 (S n) set' tmp in (c :: r, a, dc :: ds)
          else let '(r, a, ds) := replace_inj E internal known n0 (S n) set' (tmp ++ [repl]) in (r, c :: a, dc :: ds)
      | None => let '(r, a, ds) := replace_inj E internal known n0 n set' tmp in (c :: r, a, ds)
      end
  end.
Definition replace_injectivity_defs E internal known n set := replace_inj E internal known n n set [].

(** ** Specification vocabulary *)

(** The signature contains the symbol as declared. *)
Definition decl_in (E : env) (d : decl) : Prop := fargs (srt E) (dcl_sym d) = dcl_args d /\ fres (srt E) (dcl_sym d) = dcl_res d.
