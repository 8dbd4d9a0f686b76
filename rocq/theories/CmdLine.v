(** The command line of E's programs (INOUT/cio_commandline.c).

    Strings are lists of characters without the terminating 0, which is
    what reading at the length gives.  The argument vector is an array of
    cells that may be uninitialised; reading such a cell, or one outside
    the array, is undefined behaviour.  The error exit of Error() is the
    outcome [Usage].  int is taken to be unbounded. *)

From Coq Require Import ZArith String Ascii List Bool.
Import ListNotations.
Local Open Scope Z_scope.

Definition str := list ascii.

Definition nul : ascii := Ascii.zero.
Definition dash : ascii := "-"%char.
Definition eqs : ascii := "="%char.
Definition nl : ascii := "010"%char.
Definition sp : ascii := " "%char.

(** The ways a call can end. *)
Inductive out (A : Type) : Type :=
| Ok (a : A)
| Usage            (** Error(..., USAGE_ERROR) *)
| Ub               (** undefined behaviour *)
| Tired.           (** the fuel of the model ran out *)
Arguments Ok {A}. Arguments Usage {A}. Arguments Ub {A}. Arguments Tired {A}.

Definition bind {A B} (x : out A) (f : A -> out B) : out B :=
  match x with Ok a => f a | Usage => Usage | Ub => Ub | Tired => Tired end.
Notation "'do' x <- e ; f" := (bind e (fun x => f))
  (at level 200, x pattern, e at level 100, f at level 200).

(** INOUT/cio_commandline.h lines 50-66: OptArgType and OptCell; the
    description is left out here. *)
Inductive kind := NoArg | OptArg | ReqArg.

Record opt := mkopt {
  o_code : Z;
  o_short : ascii;
  o_long : option str;
  o_kind : kind;
  o_default : option str
}.

(** INOUT/cio_commandline.h lines 69-78: CLStateCell. *)
Inductive cell := Junk | Null | Arg (s : str).

Record clstate := mkcl {
  sc_opt_c : nat;
  argi : nat;
  argsize : Z;
  argc : Z;
  argv : list cell
}.

(** Reading s[k]. *)
Definition at_ (s : str) (k : nat) : out ascii :=
  match nth_error s k with
  | Some c => Ok c
  | None => if Nat.eqb k (length s) then Ok nul else Ub
  end.

(** Reading argv[i] as a pointer: NULL or a string. *)
Definition get (v : list cell) (i : nat) : out (option str) :=
  match nth_error v i with
  | Some (Arg s) => Ok (Some s)
  | Some Null => Ok None
  | _ => Ub
  end.

Fixpoint eqstr (a b : str) : bool :=
  match a, b with
  | [], [] => true
  | x :: a', y :: b' => Ascii.eqb x y && eqstr a' b'
  | _, _ => false
  end.

(** strncmp(a, b, n) == 0 *)
Fixpoint eqn (n : nat) (a b : str) : bool :=
  match n with
  | 0%nat => true
  | S n' => match a, b with
            | [], [] => true
            | x :: a', y :: b' => Ascii.eqb x y && eqn n' a' b'
            | _, _ => false
            end
  end.

(** INOUT/cio_commandline.c lines 127-142: shift_array_left(), on the part
    of the array that starts at the given element; [c] is array[i] and the
    list what follows it. *)
Fixpoint shift_from (c : cell) (v : list cell) : out (list cell) :=
  match v with
  | [] => Ub
  | Junk :: _ => Ub
  | Null :: _ => Ok (Null :: v)
  | Arg s :: v' => do r <- shift_from (Arg s) v'; Ok (Arg s :: r)
  end.

Definition shift_array_left (v : list cell) (i : nat) : out (list cell) :=
  match skipn i v with
  | [] => Ub
  | Junk :: _ => Ub
  | Null :: _ => Ok v
  | c :: r => do w <- shift_from c r; Ok (firstn i v ++ w)
  end.

(** lines 162-171: the length of the name of a long option. *)
Fixpoint name_len (s : str) : nat :=
  match s with
  | [] => 0
  | c :: s' => if Ascii.eqb c eqs then 0 else S (name_len s')
  end.

(** lines 172-181: the search in find_long_opt(). *)
Fixpoint search_long (name : str) (len : nat) (os : list opt)
  : out (option opt) :=
  match os with
  | [] => Ub
  | o :: os' =>
      if o_code o =? 0 then Ok None
      else match o_long o with
           | None => Ub
           | Some l => if eqn len l name && Nat.eqb (length l) len
                       then Ok (Some o)
                       else search_long name len os'
           end
  end.

(** lines 157-181: find_long_opt(). *)
Definition find_long_opt (option_ : str) (os : list opt) : out (option opt) :=
  let name := skipn 2 option_ in
  search_long name (name_len name) os.

(** lines 196-208: find_short_opt(). *)
Fixpoint find_short_opt (c : ascii) (os : list opt) : out (option opt) :=
  match os with
  | [] => Ub
  | o :: os' =>
      if o_code o =? 0 then Ok None
      else if Ascii.eqb c (o_short o) then Ok (Some o)
      else find_short_opt c os'
  end.

(** strchr(s, '=') + 1, if there is one. *)
Fixpoint after_eq (s : str) : option str :=
  match s with
  | [] => None
  | c :: s' => if Ascii.eqb c eqs then Some s' else after_eq s'
  end.

(** shift_array_left(&(state->argv[state->argi])); state->argc--; *)
Definition drop (st : clstate) : out clstate :=
  do v <- shift_array_left (argv st) (argi st);
  Ok (mkcl (sc_opt_c st) (argi st) (argsize st) (argc st - 1) v).

Definition with_sc (st : clstate) (k : nat) : clstate :=
  mkcl k (argi st) (argsize st) (argc st) (argv st).

Definition found := (opt * option str)%type.

(** lines 225-281: process_long_option(). *)
Definition process_long_option (st : clstate) (os : list opt)
  : out (clstate * option found) :=
  do a <- get (argv st) (argi st);
  match a with
  | None => Ub
  | Some s =>
      do h <- find_long_opt s os;
      match h with
      | None => Usage
      | Some o =>
          do arg <- match o_kind o, after_eq s with
                    | NoArg, Some _ => Usage
                    | NoArg, None => Ok None
                    | OptArg, Some v => Ok (Some v)
                    | OptArg, None => Ok (o_default o)
                    | ReqArg, None => Usage
                    | ReqArg, Some v => Ok (Some v)
                    end;
          do st' <- drop st;
          Ok (st', Some (o, arg))
      end
  end.

(** lines 323-335: the case OptArg, NoArg in process_short_option(). *)
Definition next_in_cluster (st : clstate) (s : str) : out clstate :=
  let st1 := with_sc st (S (sc_opt_c st)) in
  do c <- at_ s (sc_opt_c st1);
  if Ascii.eqb c nul then drop (with_sc st1 0) else Ok st1.

(** lines 336-366: the case ReqArg in process_short_option(). *)
Definition short_with_arg (st : clstate) (s : str) : out (clstate * str) :=
  if negb (Nat.eqb (sc_opt_c st) 1) then Usage
  else
    do c <- at_ s (sc_opt_c st + 1);
    if negb (Ascii.eqb c nul)
    then do st' <- drop (with_sc st 0);
         Ok (st', skipn (sc_opt_c st + 1) s)
    else
      do st1 <- drop st;
      do a <- get (argv st1) (argi st1);
      match a with
      | None => Usage
      | Some v => do st2 <- drop (with_sc st1 0); Ok (st2, v)
      end.

(** lines 299-373: process_short_option(). *)
Definition process_short_option (st : clstate) (os : list opt)
  : out (clstate * option found) :=
  do a <- get (argv st) (argi st);
  match a with
  | None => Ub
  | Some s =>
      do c <- at_ s (sc_opt_c st);
      do h <- find_short_opt c os;
      match h with
      | None => Usage
      | Some o =>
          match o_kind o with
          | OptArg => do st' <- next_in_cluster st s;
                      Ok (st', Some (o, o_default o))
          | NoArg => do st' <- next_in_cluster st s; Ok (st', Some (o, None))
          | ReqArg => do (st', v) <- short_with_arg st s;
                      Ok (st', Some (o, Some v))
          end
      end
  end.

(** lines 423-441: CLStateAlloc(). *)
Definition CLStateAlloc (args : list str) : out clstate :=
  let n := length args in
  let v := map Arg args ++ [Null; Junk] in
  do w <- shift_array_left v 0;
  Ok (mkcl 0 0 (Z.of_nat n + 2) (Z.of_nat n - 1) w).

(** Writing argv[i]. *)
Fixpoint put (v : list cell) (i : nat) (c : cell) : out (list cell) :=
  match v, i with
  | [], _ => Ub
  | _ :: v', 0%nat => Ok (c :: v')
  | x :: v', S i' => do w <- put v' i' c; Ok (x :: w)
  end.

Definition putz (v : list cell) (i : Z) (c : cell) : out (list cell) :=
  if i <? 0 then Ub else put v (Z.to_nat i) c.

(** lines 480-493: CLStateInsertArg(). *)
Definition CLStateInsertArg (st : clstate) (a : str) : out clstate :=
  let '(sz, v) := if argsize st =? argc st + 2
                  then (argsize st + 1, argv st ++ [Junk])
                  else (argsize st, argv st) in
  do v1 <- putz v (argc st) (Arg a);
  do v2 <- putz v1 (argc st + 1) Null;
  Ok (mkcl (sc_opt_c st) (argi st) sz (argc st + 1) v2).

(** Several calls of CLStateInsertArg(). *)
Fixpoint insert_all (st : clstate) (l : list str) : out clstate :=
  match l with
  | [] => Ok st
  | a :: l' => do st' <- CLStateInsertArg st a; insert_all st' l'
  end.

(** lines 511-519: over the arguments that are no options. *)
Fixpoint skip_plain (v : list cell) (i : nat) : out nat :=
  match v with
  | [] => Ub
  | Junk :: _ => Ub
  | Null :: _ => Ok i
  | Arg s :: v' =>
      do c0 <- at_ s 0;
      if Ascii.eqb c0 dash
      then do c1 <- at_ s 1;
           if Ascii.eqb c1 nul then skip_plain v' (S i) else Ok i
      else skip_plain v' (S i)
  end.

(** lines 528-531: to the end of the arguments. *)
Fixpoint skip_all (v : list cell) (i : nat) : out nat :=
  match v with
  | [] => Ub
  | Junk :: _ => Ub
  | Null :: _ => Ok i
  | Arg _ :: v' => skip_all v' (S i)
  end.

Definition with_argi (st : clstate) (i : nat) : clstate :=
  mkcl (sc_opt_c st) i (argsize st) (argc st) (argv st).

(** lines 509-543: CLStateGetOpt(). *)
Definition CLStateGetOpt (st0 : clstate) (os : list opt)
  : out (clstate * option found) :=
  do i <- skip_plain (skipn (argi st0) (argv st0)) (argi st0);
  let st := with_argi st0 i in
  do a <- get (argv st) (argi st);
  match a with
  | None => Ok (st, None)
  | Some s =>
      if eqstr s [dash; dash]
      then do st1 <- drop st;
           do j <- skip_all (skipn (argi st1) (argv st1)) (argi st1);
           Ok (with_argi st1 j, None)
      else if eqn 2 s [dash; dash] then process_long_option st os
      else process_short_option
             (if Nat.eqb (sc_opt_c st) 0 then with_sc st 1 else st) os
  end.

(** PROVER/eprover.c line 1153 and the like: the loop
    while((handle = CLStateGetOpt(state, &arg, opts))), with what it hands
    to its body.  The body itself is not modelled; it is taken to go on. *)
Fixpoint options_loop (fuel : nat) (st : clstate) (os : list opt)
  : out (clstate * list found) :=
  match fuel with
  | 0%nat => Tired
  | S n =>
      do (st', r) <- CLStateGetOpt st os;
      match r with
      | None => Ok (st', [])
      | Some f => do (st2, fs) <- options_loop n st' os; Ok (st2, f :: fs)
      end
  end.

(** PROVER/eprover.c line 193: for(i=0; state->argv[i]; i++). *)
Fixpoint files (v : list cell) : out (list str) :=
  match v with
  | [] => Ub
  | Junk :: _ => Ub
  | Null :: _ => Ok []
  | Arg s :: v' => do r <- files v'; Ok (s :: r)
  end.

(** Enough rounds for a command line. *)
Definition rounds (args : list str) : nat :=
  S (fold_right (fun s n => length s + n)%nat 0%nat args).

(** PROVER/eprover.c lines 1151-1153, 188-193: what a program sees of its
    command line: the options with their arguments, and the input files. *)
Definition command_line (args : list str) (os : list opt)
  : out (list found * list str) :=
  do st <- CLStateAlloc args;
  do (st1, fs) <- options_loop (rounds args) st os;
  do st2 <- (if argc st1 =? 0 then CLStateInsertArg st1 [dash] else Ok st1);
  do l <- files (argv st2);
  Ok (fs, l).

(* ------------------------------------------------------------------ *)
(** * Numerical and boolean arguments *)

Definition is_space (c : ascii) : bool :=
  let n := nat_of_ascii c in Nat.eqb n 32 || (Nat.leb 9 n && Nat.leb n 13).

Definition digit (c : ascii) : option Z :=
  let n := Z.of_nat (nat_of_ascii c) in
  if (48 <=? n) && (n <=? 57) then Some (n - 48) else None.

Definition long_max : Z := 2 ^ 63 - 1.
Definition long_min : Z := - 2 ^ 63.

Fixpoint skip_space (s : str) : str :=
  match s with
  | c :: s' => if is_space c then skip_space s' else s
  | [] => []
  end.

(** The digits at the start of a string: how many and their value. *)
Fixpoint digits (s : str) (acc : Z) : Z * str :=
  match s with
  | c :: s' => match digit c with
               | Some d => digits s' (10 * acc + d)
               | None => (acc, s)
               end
  | [] => (acc, [])
  end.

Definition sign (s : str) : bool * str :=
  match s with
  | c :: s' => if Ascii.eqb c dash then (true, s')
               else if Ascii.eqb c "+"%char then (false, s')
               else (false, s)
  | [] => (false, [])
  end.

(** strtol(s, &end, 10) of the C standard, in the C locale and with 64 bit
    long: the value, the rest, and whether errno was set. *)
Definition strtol (s : str) : Z * str * bool :=
  let '(neg, t) := sign (skip_space s) in
  match t with
  | c :: _ =>
      match digit c with
      | None => (0, s, false)
      | Some _ =>
          let '(n, r) := digits t 0 in
          let m := if neg : bool then - n else n in
          if long_max <? m then (long_max, r, true)
          else if m <? long_min then (long_min, r, true)
          else (m, r, false)
      end
  | [] => (0, s, false)
  end.

(** lines 603-631: CLStateGetIntArg(). *)
Definition CLStateGetIntArg (s : str) : out Z :=
  let '(n, r, err) := strtol s in
  if err : bool then Usage
  else match r with [] => Ok n | _ => Usage end.

(** lines 646-665: CLStateGetIntArgCheckRange(). *)
Definition CLStateGetIntArgCheckRange (s : str) (lower upper : Z) : out Z :=
  do n <- CLStateGetIntArg s;
  if (n <? lower) || (upper <? n) then Usage else Ok n.

(** lines 680-703: CLStateGetBoolArg(). *)
Definition CLStateGetBoolArg (s : str) : out bool :=
  if eqstr s (list_ascii_of_string "true") then Ok true
  else if eqstr s (list_ascii_of_string "false") then Ok false
  else Usage.

(* ------------------------------------------------------------------ *)
(** * The layout of descriptions *)

(** lines 64-80: the search in print_start_of_str(): i, search and blank
    when it ends, the pointers as offsets into the string. *)
Fixpoint find_blank (s : str) (len i pos : nat) (blank : option nat)
  : nat * nat * option nat :=
  match s with
  | [] => (i, pos, blank)
  | c :: s' =>
      if Nat.ltb i len
      then if Ascii.eqb c sp then find_blank s' len (S i) (S pos) (Some pos)
           else if Ascii.eqb c nl then (len, pos, Some pos)
           else find_blank s' len (S i) (S pos) blank
      else (i, pos, blank)
  end.

(** lines 58-112: print_start_of_str(): the line printed, without its
    newline, and what is left to print. *)
Definition print_start_of_str (s : str) (len : nat) : str * option str :=
  let '(i, pos, blank) := find_blank s len 0 0 None in
  if Nat.ltb i len then (s, None)
  else match blank with
       | Some b => (firstn b s,
                    match skipn (S b) s with [] => None | r => Some r end)
       | None => (firstn pos s, Some (skipn pos s))
       end.

(** lines 773-778: the loop in PrintOption(), giving the lines without
    their indentation. *)
Fixpoint print_desc (fuel : nat) (s : str) (len : nat) : out (list str) :=
  match fuel with
  | 0%nat => Tired
  | S n =>
      let '(l, r) := print_start_of_str s len in
      match r with
      | None => Ok [l]
      | Some s' => do ls <- print_desc n s' len; Ok (l :: ls)
      end
  end.

(** INOUT/cio_commandline.h line 88 *)
Definition FORMAT_WIDTH : nat := 78.

Definition description (s : str) : out (list str) :=
  print_desc (S (length s)) s (FORMAT_WIDTH - 4).
