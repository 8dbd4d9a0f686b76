(** * Model of the symbol table (TERMS/cte_signature.c): names, arities and codes of function symbols.

    Types, polymorphism and all properties except FPSpecial are left out; the array f_info is a list (code c at position c - 1,
    f_info[0] is unused) together with its allocated size, f_index (a splay tree of strings, C26) is an association list in which an
    insertion does nothing if the key is present.  problemType is PROBLEM_FO.  Strings are Coq strings without NUL. *)
From Coq Require Import String Ascii List ZArith Lia Bool Arith.
Import ListNotations.
Local Open Scope nat_scope.
Local Open Scope list_scope.

Record fcell := { iname : string; ipname : string; iarity : Z; ispecial : bool }.
(** SigCell, cte_signature.h:127-180 *)
Record sig := { finfo : list fcell; fsize : nat; findex : list (string * nat) }.
Definition fcount (s : sig) : nat := length (finfo s).
(** SigAlloc, cte_signature.c:125-190, before any symbol is inserted: DEFAULT_SIGNATURE_SIZE is 20 *)
Definition empty_sig : sig := {| finfo := []; fsize := 20; findex := [] |}.

(** StrTreeFind, StrTreeInsert, StrTreeDeleteEntry, clb_stringtrees.c:192-234, 274-300, 335-365 *)
Fixpoint lookup (k : string) (l : list (string * nat)) : option nat :=
  match l with
  | [] => None
  | (k', c) :: l' => if String.eqb k k' then Some c else lookup k l'
  end.
Definition store (k : string) (c : nat) (l : list (string * nat)) : list (string * nat) :=
  match lookup k l with Some _ => l | None => (k, c) :: l end.
Fixpoint delete (k : string) (l : list (string * nat)) : list (string * nat) :=
  match l with
  | [] => []
  | (k', c) :: l' => if String.eqb k k' then l' else (k', c) :: delete k l'
  end.
(** node->val1.i_val = id *)
Fixpoint assign (k : string) (c : nat) (l : list (string * nat)) : list (string * nat) :=
  match l with
  | [] => []
  | (k', c') :: l' => if String.eqb k k' then (k', c) :: l' else (k', c') :: assign k c l'
  end.

(** DStrDeleteLastChar, clb_dstrings.c:267-280 *)
Fixpoint drop_last (s : string) : string :=
  match s with
  | EmptyString => EmptyString
  | String _ EmptyString => EmptyString
  | String c s' => String c (drop_last s')
  end.
(** cte_signature.c:368-374 and 672-678: a name in single quotes without the first and the last character *)
Definition quote : ascii := "'".
Definition quoted (name : string) : bool := match name with String c _ => Ascii.eqb c quote | EmptyString => false end.
Definition raw (name : string) : string := match name with String c r => if Ascii.eqb c quote then drop_last r else name | EmptyString => name end.

(** sprintf "%ld", "%d" *)
Fixpoint digits (u : Decimal.uint) : string :=
  match u with
  | Decimal.Nil => EmptyString
  | Decimal.D0 u => String "0" (digits u) | Decimal.D1 u => String "1" (digits u) | Decimal.D2 u => String "2" (digits u) | Decimal.D3 u => String "3" (digits u)
  | Decimal.D4 u => String "4" (digits u) | Decimal.D5 u => String "5" (digits u) | Decimal.D6 u => String "6" (digits u) | Decimal.D7 u => String "7" (digits u)
  | Decimal.D8 u => String "8" (digits u) | Decimal.D9 u => String "9" (digits u)
  end.
Definition print_nat (n : nat) : string := digits (Nat.to_uint n).
Definition print_Z (z : Z) : string := if (z <? 0)%Z then String "-" (print_nat (Z.to_nat (- z))) else print_nat (Z.to_nat z).

(** SigFindFCode, cte_signature.c:362-387; 0: not found *)
Definition sig_find (s : sig) (name : string) : nat := match lookup (raw name) (findex s) with Some c => c | None => 0 end.
Definition cell (s : sig) (c : nat) : option fcell := match c with 0 => None | S i => nth_error (finfo s) i end.
Definition arity_of (s : sig) (c : nat) : Z := match cell s c with Some f => iarity f | None => 0%Z end.
Fixpoint set_nth {A} (i : nat) (f : A -> A) (l : list A) : list A :=
  match l, i with
  | [], _ => []
  | a :: l', 0 => f a :: l'
  | a :: l', S i' => a :: set_nth i' f l'
  end.
(** SigSetSpecial, cte_signature.c:559-573, with value = true *)
Definition set_special (s : sig) (c : nat) : sig :=
  {| finfo := set_nth (c - 1) (fun f => {| iname := iname f; ipname := ipname f; iarity := iarity f; ispecial := true |}) (finfo s);
     fsize := fsize s; findex := findex s |}.
(** the name used for a further arity, 695-699 *)
Definition fix_name (name : string) (arity : Z) : string := (name ++ "_ARITYFIX" ++ print_Z arity ++ " ")%string.
(** 720-726 *)
Definition grow (s : sig) : nat := if Nat.eqb (fcount s) (fsize s - 1) then fsize s * 2 else fsize s.
(** SigInsertId, cte_signature.c:662-748.  The cell is written at index f_count + 1 of the array. *)
Definition sig_insert (s : sig) (name : string) (arity : Z) (special : bool) : sig * nat :=
  let rawname := raw name in
  let pos := sig_find s rawname in
  let '(key, prt, pos) :=
    if negb (Nat.eqb pos 0) && negb (arity_of s pos =? arity)%Z
    then (fix_name name arity, rawname, sig_find s (fix_name name arity))
    else (rawname, name, pos) in
  if Nat.eqb pos 0
  then let c := S (fcount s) in
       ({| finfo := finfo s ++ [{| iname := key; ipname := prt; iarity := arity; ispecial := special |}]; fsize := grow s; findex := store key c (findex s) |}, c)
  else ((if special then set_special s pos else s), pos).

(** SigPopId, SigBacktrack, cte_signature.c:763-806 *)
Definition sig_pop (s : sig) : sig :=
  match rev (finfo s) with
  | [] => s
  | f :: r => {| finfo := rev r; fsize := fsize s; findex := delete (iname f) (findex s) |}
  end.
Fixpoint pops (k : nat) (s : sig) : sig := match k with 0 => s | S k' => pops k' (sig_pop s) end.
Definition sig_backtrack (s : sig) (count : nat) : sig := pops (fcount s - count) s.

(** SigGetNewFCode, cte_signature.c:1456-1473: the new counter, symbol table and code; [None]: fuel exhausted *)
Definition new_name (prefix : string) (counter : nat) (arity : nat) : string := (prefix ++ print_nat counter ++ "_" ++ print_nat arity)%string.
Fixpoint unused (fuel : nat) (s : sig) (prefix : string) (counter arity : nat) : option nat :=
  match fuel with
  | 0 => None
  | S m => if Nat.eqb (sig_find s (new_name prefix counter arity)) 0 then Some counter else unused m s prefix (S counter) arity
  end.
Definition sig_new (fuel : nat) (s : sig) (prefix : string) (counter arity : nat) : option (sig * nat * nat) :=
  match unused fuel s prefix (S counter) arity with
  | None => None
  | Some k => let '(s', c) := sig_insert s (new_name prefix k arity) (Z.of_nat arity) false in Some (s', c, k)
  end.

(** SigInsertLetId, cte_signature.c:822-851: the name is not entered into the index *)
Definition let_insert (s : sig) (name : string) (arity : Z) : sig * nat :=
  ({| finfo := finfo s ++ [{| iname := name; ipname := name; iarity := arity; ispecial := false |}]; fsize := grow s; findex := findex s |}, S (fcount s)).
(** SigEnterLetScope, cte_signature.c:2134-2165: in the scope [None] is TMP_LET_ID; the top of the stack is the head.  The outcome
    [None]: [node] is NULL (2152-2153). *)
Definition enter1 (p : option (sig * list (option nat * string))) (id : nat) : option (sig * list (option nat * string)) :=
  match p with
  | None => None
  | Some (s, scope) =>
      match cell s id with
      | None => None
      | Some f =>
          let name := iname f in
          let old := sig_find s name in
          if negb (Nat.eqb old 0)
          then match lookup name (findex s) with
               | None => None
               | Some _ => Some ({| finfo := finfo s; fsize := fsize s; findex := assign name id (findex s) |}, (Some old, name) :: scope)
               end
          else Some ({| finfo := finfo s; fsize := fsize s; findex := store name id (findex s) |}, (None, name) :: scope)
      end
  end.
Definition enter_scope (s : sig) (ids : list nat) : option (sig * list (option nat * string)) := fold_left enter1 ids (Some (s, [])).
(** SigExitLetScope, cte_signature.c:2178-2200 *)
Definition exit1 (s : sig) (p : option nat * string) : sig :=
  match p with
  | (Some id, name) => {| finfo := finfo s; fsize := fsize s; findex := assign name id (findex s) |}
  | (None, name) => {| finfo := finfo s; fsize := fsize s; findex := delete name (findex s) |}
  end.
Definition exit_scope (s : sig) (scope : list (option nat * string)) : sig := fold_left exit1 scope s.

(** ** Specification *)
(** a history of insertions and the codes they return *)
Definition occurrence := (string * Z)%type.
Fixpoint inserts (s : sig) (l : list (occurrence * bool)) : sig * list nat :=
  match l with
  | [] => (s, [])
  | ((name, a), sp) :: l' => let '(s1, c) := sig_insert s name a sp in let '(s2, cs) := inserts s1 l' in (s2, c :: cs)
  end.
Fixpoint last_char (s : string) : option ascii :=
  match s with EmptyString => None | String c EmptyString => Some c | String _ s' => last_char s' end.
(** a name [n] is written with or without quotes *)
Definition written (q : bool) (n : string) : string := if q then String "'" (n ++ "'")%string else n.
(** names that do not start with a quote or end with a blank *)
Definition plain (text : string) : Prop := exists q n, text = written q n /\ (forall n', n <> String "'" n') /\ last_char n <> Some " "%char.
(** a name written in quotes is used with one arity only *)
Definition one_arity (l : list occurrence) : Prop :=
  forall n q a b, In (written true n, a) l -> In (written q n, b) l -> a = b.
(** the symbols of a $let are declared one after the other *)
Fixpoint lets (s : sig) (ds : list occurrence) : sig * list nat :=
  match ds with
  | [] => (s, [])
  | (name, a) :: ds' => let '(s1, c) := let_insert s name a in let '(s2, cs) := lets s1 ds' in (s2, c :: cs)
  end.
