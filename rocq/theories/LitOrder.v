(** * Model of literal comparison and maximality (CLAUSES/ccl_eqn.c, ccl_eqnlist.c). *)
From Verif Require Import Terms Unify KBO Semantics Clauses.

(** LiteralCmp, ORDERINGS/cto_ocb.h:51-57 *)
Inductive litcmp := LCNoCmp | LCNormal | LCTFOEqMax | LCTFOEqMin.

(** What literal comparison reads from the ordering control block: TOCompare with DEREF_ALWAYS on
    both sides under the bindings in force, the literal comparison mode, the precedence. *)
Record lord := {
  tcmp : binding -> term -> term -> cmp;
  lcmp : litcmp;
  fcmp : sym -> sym -> cmp }.

Section Compare.
Variables (o : lord) (b : binding).
Notation cmpt := (tcmp o b).

Definition ge (c : cmp) : bool := match c with Greater | Equal => true | _ => false end.
Definition le (c : cmp) : bool := match c with Lesser | Equal => true | _ => false end.
Definition gt (c : cmp) : bool := match c with Greater => true | _ => false end.
Definition lss (c : cmp) : bool := match c with Lesser => true | _ => false end.
Definition eqc (c : cmp) : bool := match c with Equal => true | _ => false end.

(** compare_pos_eqns, ccl_eqn.c:109-178 *)
Definition compare_pos_eqns (e1 e2 : eqn) : cmp :=
  let l1l2 := cmpt (lt e1) (lt e2) in
  let r1r2 := cmpt (rt e1) (rt e2) in
  if eqc l1l2 && eqc r1r2 then Equal
  else if ge l1l2 && ge r1r2 then Greater
  else if le l1l2 && le r1r2 then Lesser
  else
  let l1r2 := cmpt (lt e1) (rt e2) in
  if gt l1l2 && gt l1r2 then Greater
  else if lss l1r2 && lss r1r2 then Lesser
  else
  let r1l2 := cmpt (rt e1) (lt e2) in
  if eqc l1r2 && eqc r1l2 then Equal
  else if ge r1l2 && ge l1r2 then Greater
  else if gt r1l2 && gt r1r2 then Greater
  else if lss l1l2 && lss r1l2 then Lesser
  else if le r1l2 && le l1r2 then Lesser
  else Uncomparable.

(** compare_poseqn_negeqn, ccl_eqn.c:210-264 *)
Definition compare_poseqn_negeqn (e1 e2 : eqn) : cmp :=
  let l1l2 := cmpt (lt e1) (lt e2) in
  if ori e1 then
    if le l1l2 then Lesser else
    let l1r2 := cmpt (lt e1) (rt e2) in
    if le l1r2 then Lesser
    else if gt l1l2 && gt l1r2 then Greater
    else Uncomparable
  else
    let l1r2 := cmpt (lt e1) (rt e2) in
    if gt l1l2 && gt l1r2 then Greater else
    let r1l2 := cmpt (rt e1) (lt e2) in
    let r1r2 := cmpt (rt e1) (rt e2) in
    if gt r1l2 && gt r1r2 then Greater
    else if (le l1l2 || le l1r2) && (le r1l2 || le r1r2) then Lesser
    else Uncomparable.

(** tfo_literal_compare, ccl_eqn.c:2491-2526; [None] = to_unknown *)
Definition tfo_literal_compare (e1 e2 : eqn) : option cmp :=
  let pred_case :=
    if negb (equlit e1) then
      match lt e1, lt e2 with
      | Fun f _, Fun g _ => Some (fcmp o f g)
      | _, _ => None
      end
    else None in
  match lcmp o with
  | LCTFOEqMax =>
      if equlit e1 && negb (equlit e2) then Some Greater
      else if negb (equlit e1) && equlit e2 then Some Lesser
      else pred_case
  | LCTFOEqMin =>
      if equlit e1 && negb (equlit e2) then Some Lesser
      else if negb (equlit e1) && equlit e2 then Some Greater
      else pred_case
  | _ => None
  end.

(** LiteralCompare, ccl_eqn.c:2560-2621 *)
Definition literal_compare (e1 e2 : eqn) : cmp :=
  if pseudo e1 && negb (pseudo e2) then Lesser
  else if pseudo e2 && negb (pseudo e1) then Greater
  else
  let rest :=
    match lcmp o with
    | LCNoCmp => Uncomparable
    | _ =>
      match tfo_literal_compare e1 e2 with
      | Some Greater => Greater
      | Some Lesser => Lesser
      | _ =>
        if Bool.eqb (pos e1) (pos e2) then compare_pos_eqns e1 e2
        else if pos e1 then compare_poseqn_negeqn e1 e2
        else cmp_inv (compare_poseqn_negeqn e2 e1)
      end
    end in
  if negb (sel e1) then (if sel e2 then Lesser else rest)
  else if negb (sel e2) then Greater
  else if negb (Bool.eqb (pos e1) (pos e2)) then Uncomparable else rest.

(** EqnListEqnIsMaximal, EqnListEqnIsStrictlyMaximal, ccl_eqnlist.c:1395-1462, for the literal at
    index i; [i] counts down to the literal skipped ("handle != eqn"). *)
Fixpoint is_maximal (l : list eqn) (i : nat) (e : eqn) : bool :=
  match l with
  | [] => true
  | h :: l' =>
      match i with
      | O => is_maximal l' (length l) e
      | S j => if maxi h && gt (literal_compare h e) then false else is_maximal l' j e
      end
  end.
Fixpoint is_strictly_maximal (l : list eqn) (i : nat) (e : eqn) : bool :=
  match l with
  | [] => true
  | h :: l' =>
      match i with
      | O => is_strictly_maximal l' (length l) e
      | S j => if maxi h && ge (literal_compare h e) then false else is_strictly_maximal l' j e
      end
  end.
End Compare.

(** EqnOrient, ccl_eqn.c:2382-2432: the new literal (swapped if the left side was smaller). *)
Definition eqn_orient (o : lord) (b : binding) (e : eqn) : eqn :=
  if uptodate e then e else
  let rel := if term_eqb (lt e) (rt e) then Equal
             else if term_eqb (lt e) ttrue then Lesser
             else if term_eqb (rt e) ttrue then Greater
             else tcmp o b (lt e) (rt e) in
  let set e b := mkeqn (lt e) (rt e) (pos e) b true (maxi e) (smaxi e) (sel e) (pseudo e) in
  match rel with
  | Greater => set e true
  | Lesser => set (swap_sides e) true
  | _ => set e false
  end.

(** EqnListMaximalLiterals, ccl_eqnlist.c:1319-1376.  The list elements carry their index; the two
    flags are kept in boolean maps indexed by it: [sm] strictly maximal, and the list of survivors.
    Inner loop 1337-1366: compare [cand] with the rest; result: is cand still a candidate, the
    remaining list, the flags. *)
Section Maximal.
Variable cmpl : nat -> nat -> cmp.        (* LiteralCompare of the literals at two indices *)
Definition clr (f : nat -> bool) (i : nat) : nat -> bool := fun j => if Nat.eqb i j then false else f j.
Fixpoint max_inner (cand : nat) (l : list nat) (sm : nat -> bool) : bool * list nat * (nat -> bool) :=
  match l with
  | [] => (true, [], sm)
  | h :: l' =>
      match cmpl cand h with
      | Greater => max_inner cand l' (clr sm h)
      | Lesser => (false, l, clr sm cand)
      | Equal => let '(c, r, sm') := max_inner cand l' (clr (clr sm h) cand) in (c, h :: r, sm')
      | Uncomparable => let '(c, r, sm') := max_inner cand l' sm in (c, h :: r, sm')
      end
  end.
(** Outer loop 1332-1371; [None] excluded: the list shrinks in every iteration. *)
Fixpoint max_outer (fuel : nat) (l : list nat) (sm : nat -> bool) (maxl : list nat) : option (list nat * (nat -> bool)) :=
  match l with
  | [] => Some (maxl, sm)
  | cand :: rest =>
      match fuel with
      | O => None
      | S n => let '(c, r, sm') := max_inner cand rest sm in
               max_outer n r sm' (if c then cand :: maxl else maxl)
      end
  end.
End Maximal.

Definition maximal_literals (o : lord) (b : binding) (l : list eqn) : option (list eqn) :=
  let dflt := mkeqn ttrue ttrue true false false false false false false in
  let cmpl i j := literal_compare o b (nth i l dflt) (nth j l dflt) in
  match max_outer cmpl (length l) (seq 0 (length l)) (fun _ => true) [] with
  | None => None
  | Some (ml, sm) =>
      Some (map (fun '(i, e) => mkeqn (lt e) (rt e) (pos e) (ori e) (uptodate e)
                     (existsb (Nat.eqb i) ml) (sm i) (sel e) (pseudo e))
                (combine (seq 0 (length l)) l))
  end.
