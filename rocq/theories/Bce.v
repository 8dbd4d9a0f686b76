(** * Model of blocked clause elimination
    (CLAUSES/ccl_bce.c, ccl_eqnlist.c:2077-2089).
    First-order problems; executable definitions only.  Output is not modelled.  A clause is named by its position in the set; moving it
    to the archive is recording its position. *)
From Verif Require Import Terms Unify Semantics Clauses Taut Split Infer.
Local Open Scope nat_scope.

(** f_code with the sign of the literal, ccl_bce.c:130; [None]: the atom is a variable, which first-order problems do not have *)
Definition key := (sym * bool)%type.
Definition lit_key (e : eqn) : option key := match lt e with Fun f _ => Some (f, pos e) | Var _ => None end.
Definition key_eqb (a b : key) : bool := Nat.eqb (fst a) (fst b) && Bool.eqb (snd a) (snd b).
Definition opp (k : key) : key := (fst k, negb (snd k)).

(** ** The clauses in which a predicate occurs *)

(** the NumTree of make_sym_map; stacks have their top first *)
Definition smap := key -> option (list nat).
Definition store (m : smap) (k : key) (l : list nat) : smap := fun k' => if key_eqb k k' then Some l else m k'.
(** OCC_CNT and IS_BLOCKED, 25-26 *)
Definition occ_cnt (o : option (list nat)) : nat := match o with Some l => length l | None => 0 end.
Definition is_blocked (o : option (list nat)) : bool := match o with Some [] => true | _ => false end.

(** the body of the inner loop of make_sym_map, 126-179; the map and *eq_found.  No limit if occ_limit is 0. *)
Definition sym_lit (limit : nat) (i : nat) (s : smap * bool) (e : eqn) : smap * bool :=
  let (m, eqf) := s in
  if equlit e then (m, true)
  else match lit_key e with
       | None => s
       | Some k =>
           if is_blocked (m k) then s
           else if Nat.ltb 0 limit && Nat.leb limit (occ_cnt (m k) + occ_cnt (m (opp k)))
                then (store (store m k []) (opp k) [], eqf)
                else match m k with
                     | None => (store m k [i], eqf)
                     | Some [] => s
                     | Some (j :: l) => if Nat.eqb i j then s else (store m k (i :: j :: l), eqf)
                     end
       end.
(** make_sym_map, 120-182 *)
Fixpoint sym_map (limit i : nat) (N : list clause) (s : smap * bool) : smap * bool :=
  match N with
  | [] => s
  | c :: N' => sym_map limit (S i) N' (fold_left (sym_lit limit i) c s)
  end.
Definition make_sym_map (limit : nat) (N : list clause) : smap * bool := sym_map limit 0 N (fun _ => None, false).

(** ** Tasks *)

(** BCE_task, ccl_bce.c:28-45, made by make_task, 73-82; the literal by its position in the clause; no candidates is NULL *)
Record task := mktask { torig : nat; tlit : nat; tcands : list nat; tdone : nat }.

(** make_bce_queue, 198-222; the stack is walked from the bottom *)
Definition lit_tasks (m : smap) (i : nat) (c : clause) : list task :=
  flat_map (fun j => match nth_error c j with
                     | Some e => if equlit e then []
                                 else match lit_key e with
                                      | Some k => match m (opp k) with
                                                  | Some [] => []
                                                  | Some l => [mktask i j (rev l) 0]
                                                  | None => [mktask i j [] 0]
                                                  end
                                      | None => []
                                      end
                     | None => []
                     end) (seq 0 (length c)).
Fixpoint make_queue (m : smap) (i : nat) (N : list clause) : list task :=
  match N with
  | [] => []
  | c :: N' => lit_tasks m i c ++ make_queue m (S i) N'
  end.

(** ** Checks *)

Fixpoint existso {A} (f : A -> option bool) (l : list A) : option bool :=
  match l with
  | [] => Some false
  | a :: l' => match f a with
               | Some true => Some true
               | Some false => existso f l'
               | None => None
               end
  end.
Fixpoint forallo {A} (f : A -> option bool) (l : list A) : option bool :=
  match l with
  | [] => Some true
  | a :: l' => match f a with
               | Some true => forallo f l'
               | Some false => Some false
               | None => None
               end
  end.
Fixpoint filtero {A} (f : A -> option bool) (l : list A) : option (list A) :=
  match l with
  | [] => Some []
  | a :: l' => match f a, filtero f l' with
               | Some true, Some r => Some (a :: r)
               | Some false, Some r => Some r
               | _, _ => None
               end
  end.

Section Check.
(** [alt]: VarBankGetAltVar; [eno], [max_neg]: see Taut.v; [n]: fuel of unification, instantiation and the completion in the tautology test *)
Variables (E : env) (alt : var -> var) (eno : term -> Z) (max_neg n : nat).

(** ClauseCopyDisjoint, ccl_clauses.c:1036-1043, with EqnCopyDisjoint, ccl_eqn.c:1540-1557 *)
Definition disjoint_lit (e : eqn) : eqn :=
  let h := eqn_alloc E (Terms.app (fun x => Var (alt x)) (lt e)) (Terms.app (fun x => Var (alt x)) (rt e)) (pos e) in
  mkeqn (lt h) (rt h) (pos h) (ori e) (uptodate e) (maxi e) (smaxi e) (sel e) (pseudo e).
Definition disjoint (c : clause) : clause := map disjoint_lit c.

(** EqnCopy without bindings, ccl_eqn.c:1364-1384 *)
Definition lit_copy (e : eqn) : eqn :=
  let h := eqn_alloc E (lt e) (rt e) (pos e) in
  mkeqn (lt h) (rt h) (pos h) (ori e) (uptodate e && ori e) (maxi e) (smaxi e) (sel e) (pseudo e).

(** TermStructEqualDeref with DEREF_ALWAYS, TERMS/cte_termfunc.c:1500-1590; [None] = fuel exhausted *)
Fixpoint struct_eq (k : nat) (b : binding) (s t : term) : option bool :=
  match k with
  | O => None
  | S m =>
      match deref m b s, deref m b t with
      | Some (Var x), Some (Var y) => Some (Nat.eqb x y)
      | Some (Fun f a), Some (Fun g c) =>
          if Nat.eqb f g
          then (fix go (l l' : list term) : option bool :=
                  match l, l' with
                  | [], [] => Some true
                  | u :: l1, w :: l2 => match struct_eq m b u w with
                                        | Some true => go l1 l2
                                        | r => r
                                        end
                  | _, _ => Some false
                  end) a c
          else Some false
      | Some _, Some _ => Some false
      | _, _ => None
      end
  end.
Definition same_inst (b : binding) (s t : term) : option bool := struct_eq n b s t.
Definition both (a b : option bool) : option bool :=
  match a with
  | Some true => b
  | r => r
  end.
(** EqnEqualDeref, ccl_eqn.c:2006-2020 *)
Definition equal_deref (b : binding) (e1 e2 : eqn) : option bool :=
  match both (same_inst b (lt e1) (lt e2)) (same_inst b (rt e1) (rt e2)) with
  | Some false => if ori e1 && ori e2 then Some false
                  else both (same_inst b (lt e1) (rt e2)) (same_inst b (rt e1) (lt e2))
  | r => r
  end.
(** EqnListFindCompLitExcept, ccl_eqnlist.c:2077-2089; [rest]: the list without the literal excepted *)
Definition find_comp (b : binding) (rest : list eqn) (e : eqn) : option bool :=
  existso (fun x => if Bool.eqb (pos x) (pos e) then Some false else equal_deref b x e) rest.

(** split_partner_literals, ccl_bce.c:237-257 *)
Definition unifies (l e : eqn) : option bool :=
  if negb (Bool.eqb (pos l) (pos e)) && negb (equlit e)
  then match mgu n (srt E) (pp E) start (lt l) (lt e) with
       | Success _ => Some true
       | Failure _ => Some false
       | _ => None
       end
  else Some false.
Fixpoint split_partner (l : eqn) (D : clause) : option (list eqn * list eqn) :=
  match D with
  | [] => Some ([], [])
  | e :: D' => match unifies l e, split_partner l D' with
               | Some true, Some (u, r) => Some (e :: u, r)
               | Some false, Some (u, r) => Some (u, e :: r)
               | _, _ => None
               end
  end.

(** the loop 331-335; [Some None]: not unifiable *)
Fixpoint unify_with (l : eqn) (es : list eqn) (st : bstate) : option (option bstate) :=
  match es with
  | [] => Some (Some st)
  | e :: es' => match mgu n (srt E) (pp E) st (lt l) (lt e) with
                | Success st' => unify_with l es' st'
                | Failure _ => Some None
                | _ => None
                end
  end.
Definition pick_lits (u : list eqn) (is : list nat) : list eqn :=
  flat_map (fun i => match nth_error u i with Some e => [e] | None => [] end) is.
(** the while loop of check_l_resolvents_neq, 286-342; [k] bounds the number of rounds *)
Fixpoint lres_loop (k : nat) (rest : list eqn) (l : eqn) (u r : list eqn) (proc : list nat) (st : bstate) : option bool :=
  match k with
  | O => None
  | S k' =>
      match existso (find_comp (bnd st) rest) r with
      | None => None
      | Some true => Some true
      | Some false =>
          if Nat.eqb (length proc) (length u) then Some false
          else match filtero (fun i => if existsb (Nat.eqb i) proc then Some false
                                       else existso (find_comp (bnd st) rest) (pick_lits u [i])) (seq 0 (length u)) with
               | None => None
               | Some [] => Some false
               | Some new => match unify_with l (pick_lits u new) st with
                             | None => None
                             | Some None => Some true
                             | Some (Some st') => lres_loop k' rest l u r (proc ++ new) st'
                             end
               end
      end
  end.
(** check_l_resolvents_neq, 272-346, with processed = [i] *)
Definition check_lres (rest : list eqn) (l : eqn) (u r : list eqn) (i : nat) : option bool :=
  match unify_with l (pick_lits u [i]) start with
  | Some (Some st) => lres_loop (S (length u)) rest l u r [i] st
  | _ => None
  end.
(** check_blockedness_neq, 362-387; [P]: the copy of the clause, [l] its literal at position [j], [D] the partner *)
Definition check_neq (P : clause) (j : nat) (l : eqn) (D : clause) : option bool :=
  match split_partner l D with
  | None => None
  | Some (u, r) => forallo (check_lres (except j P) l u r) (seq 0 (length u))
  end.

(** check_blockedness_eq, 402-450 *)
Definition same_head (l e : eqn) : bool :=
  negb (Bool.eqb (pos l) (pos e)) && negb (equlit e)
  && match lt l, lt e with Fun f _, Fun g _ => Nat.eqb f g | _, _ => false end.
Definition args (t : term) : list term := match t with Fun _ a => a | Var _ => [] end.
(** the clause built for one literal [e] of the partner, 431-442 *)
Definition flat_resolvent (P : clause) (j : nat) (l e : eqn) (D : clause) : clause :=
  clause_alloc (rev (map (fun '(a, b) => eqn_alloc E a b false) (combine (args (lt e)) (args (lt l))))
                ++ map lit_copy (except j P)
                ++ map lit_copy (rev (map lit_copy (filter (fun x => negb (same_head l x)) D)))).
Definition check_eq (P : clause) (j : nat) (l : eqn) (D : clause) : option bool :=
  forallo (fun e => match clause_is_tautology eno max_neg E n (flat_resolvent P j l e D) with
                    | TAns b => Some b
                    | _ => None
                    end) (rev (filter (same_head l) D)).

(** the function [checker] of do_eliminate_clauses, 528-529, applied to a task with clause [C] and literal position [j] *)
Definition check (has_eq : bool) (C : clause) (j : nat) (D : clause) : option bool :=
  let P := disjoint C in
  match nth_error P j with
  | None => None
  | Some l => if has_eq then check_eq P j l D else check_neq P j l D
  end.

(** ** The main loop *)

(** check_candidates, 465-481: the new value of processed_cands; [cs]: the candidates from there on *)
Fixpoint advance (chk : nat -> option bool) (self : nat) (arch : list nat) (cs : list nat) (k : nat) : option nat :=
  match cs with
  | [] => Some k
  | c :: cs' => if Nat.eqb c self || existsb (Nat.eqb c) arch then advance chk self arch cs' (S k)
                else match chk c with
                     | Some true => advance chk self arch cs' (S k)
                     | Some false => Some k
                     | None => None
                     end
  end.
Definition chk_id (has_eq : bool) (N : list clause) (t : task) (d : nat) : option bool :=
  match nth_error N (torig t), nth_error N d with
  | Some C, Some D => check has_eq C (tlit t) D
  | _, _ => None
  end.

(** resume_task, 495-499 *)
Definition resume (t : task) : task := mktask (torig t) (tlit t) (tcands t) (S (tdone t)).
Definition with_done (t : task) (k : nat) : task := mktask (torig t) (tlit t) (tcands t) k.

(** MinHeapPopMinP: which of the tasks with fewest open candidates comes first depends on the history of the heap; [pick] may choose any
    task *)
Variable pick : list task -> nat.
Definition pop (q : list task) : option (task * list task) :=
  match q with
  | [] => None
  | t :: q' => let i := Nat.modulo (pick q) (length q) in
               Some (nth i q t, except i q)
  end.

(** do_eliminate_clauses, 524-577; [arch]: the archived clauses, latest last; [blk]: the blocker map, a task with the clause that stopped it *)
Fixpoint eliminate (fuel : nat) (has_eq : bool) (N : list clause) (q : list task) (arch : list nat) (blk : list (nat * task))
  : option (list nat) :=
  match fuel with
  | O => match q with [] => Some arch | _ => None end
  | S fuel' =>
      match pop q with
      | None => Some arch
      | Some (t, q') =>
          if existsb (Nat.eqb (torig t)) arch then eliminate fuel' has_eq N q' arch blk
          else match advance (chk_id has_eq N t) (torig t) arch (skipn (tdone t) (tcands t)) (tdone t) with
               | None => None
               | Some k =>
                   match nth_error (tcands t) k with
                   | None => eliminate fuel' has_eq N (q' ++ map (fun p => resume (snd p)) (filter (fun p => Nat.eqb (fst p) (torig t)) blk))
                               (arch ++ [torig t]) (filter (fun p => negb (Nat.eqb (fst p) (torig t))) blk)
                   | Some d => eliminate fuel' has_eq N q' arch ((d, with_done t k) :: blk)
                   end
               end
      end
  end.

(** EliminateBlockedClauses, 597-628: the clauses that stay in the set, the archived ones *)
Definition select (N : list clause) (is : list nat) : list clause :=
  flat_map (fun i => match nth_error N i with Some c => [c] | None => [] end) is.
Definition eliminate_blocked (fuel limit : nat) (N : list clause) : option (list clause * list clause) :=
  let (m, has_eq) := make_sym_map limit N in
  match eliminate fuel has_eq N (make_queue m 0 N) [] [] with
  | Some arch => Some (select N (filter (fun i => negb (existsb (Nat.eqb i) arch)) (seq 0 (length N))), select N arch)
  | None => None
  end.
End Check.

(** ** Specification vocabulary *)

(** First-order problems: truth values are not arguments of symbols or values of variables, nor numbers or distinct objects, *)
Definition fo_sig (E : env) : Prop :=
  (forall f s, In s (fargs (srt E) f) -> s <> fres (srt E) true_code) /\ (forall x, vsort (srt E) x <> fres (srt E) true_code)
  /\ (forall f, dist E f = true -> fres (srt E) f <> fres (srt E) true_code).
(** and a literal is an equation between individuals or an atom, other than $true and $false. *)
Definition fo_lit (E : env) (e : eqn) : Prop :=
  if equlit e then tsort (srt E) (lt e) <> fres (srt E) true_code
  else exists p l, lt e = Fun p l /\ p <> true_code /\ p <> false_code.
Definition fo_clause (E : env) (c : clause) : Prop := Forall (fo_lit E) c.

(** The second set of variables: same sorts, different from each other and from the variables of clauses ([base]). *)
Definition alt_ok (E : env) (alt : var -> var) (base : var -> Prop) : Prop :=
  (forall x, vsort (srt E) (alt x) = vsort (srt E) x) /\ (forall x, is_fresh (alt x) = false) /\ (forall x, ~ base (alt x))
  /\ (forall x y, alt x = alt y -> x = y).
Definition over (base : var -> Prop) (c : clause) : Prop :=
  forall e x, In e c -> In x (vars (lt e) ++ vars (rt e)) -> base x.
