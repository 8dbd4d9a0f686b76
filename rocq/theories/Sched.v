(** Strategy scheduling: how much time and how many cores the strategies of a
    schedule get, how they are run side by side, and how the schedules
    themselves are chosen and put together.

    CONTROL/cco_scheduling.c, CONTROL/cco_gproc_ctrl.c,
    HEURISTICS/che_new_autoschedule.c, BASICS/clb_simple_stuff.c.

    Simplified: fractions and times are exact rationals where the program
    computes with double and float; cores and seconds are unbounded integers.
    The ordering and SInE fields of a schedule cell are left out, no function
    here reads them.  Only the parent process is modelled: in the child,
    ExecuteScheduleMultiCore just returns. *)
From Coq Require Import Arith.Arith ZArith QArith Qround String Ascii List Bool.
Import ListNotations.
Local Open Scope list_scope.
Local Open Scope Z_scope.

Definition text := list ascii.

Definition str (s : string) : text := list_ascii_of_string s.

(** ScheduleCell, HEURISTICS/che_new_autoschedule.h: heu_name, time_fraction,
    time_absolute, cores.  A schedule is an array that ends with a cell whose
    name is NULL; here, the list of the cells before it. *)
Record strat := mkstrat { name : string; frac : Q; tabs : Z; cores : Z }.

Definition with_frac (s : strat) (q : Q) := mkstrat (name s) q (tabs s) (cores s).
Definition with_time (s : strat) (t : Z) := mkstrat (name s) (frac s) t (cores s).
Definition with_cores (s : strat) (c : Z) := mkstrat (name s) (frac s) (tabs s) c.

(** ** Times and cores: ScheduleTimesInitMultiCore, cco_scheduling.c:138-228 *)

(** The sum of the fractions, cco_scheduling.c:164-168 *)
Definition total (l : list strat) : Q := fold_left (fun q s => q + frac s)%Q l 0%Q.

(** cco_scheduling.c:157-174: a preprocessing schedule with more entries than
    cores is shortened, and the fractions are scaled to a sum of one. *)
Definition shorten (l : list strat) (c : Z) : list strat :=
  if Z.of_nat (length l) >? c
  then let l' := firstn (Z.to_nat c) l in
       let factor := (1 / total l')%Q in
       map (fun s => with_frac s (frac s * factor)%Q) l'
  else l.

(** cco_scheduling.c:191-198: the first assignment of cores *)
Definition wish (c : Z) (s : strat) : Z := Z.max (Qceiling (frac s * inject_Z c)) 1.

Definition sum_cores (l : list strat) : Z := fold_left (fun n s => n + cores s) l 0.

(** cco_scheduling.c:201-209, on the reversed list (the loop runs from the
    last entry to the first, and stops when the error is zero). *)
Fixpoint take_back (err : Z) (l : list strat) : list strat :=
  match l with
  | [] => []
  | s :: l' =>
    if err =? 0 then l
    else let to_take := Z.min (cores s - 1) err in
         with_cores s (cores s - to_take) :: take_back (err - to_take) l'
  end.

(** cco_scheduling.c:178-212; returns the schedule and *cores. *)
Definition give_cores (l : list strat) (c : Z) (serialize : bool) : list strat * Z :=
  if serialize then (map (fun s => with_cores s 1) l, 1)
  else let l1 := map (fun s => with_cores s (wish c s)) l in
       (rev (take_back (sum_cores l1 - c) (rev l1)), c).

(** cco_scheduling.c:214-227 *)
Fixpoint give_times (preproc serialize : bool) (limit sum : Z) (l : list strat) : list strat :=
  match l with
  | [] => []
  | s :: l' =>
    if negb preproc && (limit <=? sum) then []
    else
      let f := if preproc && negb serialize then 1%Q else frac s in
      let tmp := Qceiling (f * inject_Z (cores s) * inject_Z limit)%Q in
      let t := if preproc then tmp else Z.min tmp (limit - sum) in
      with_time s t :: give_times preproc serialize limit (sum + t) l'
  end.

(** The whole function; returns the schedule and *cores.  [None]: the
    conversion of a negative number to the unsigned type rlim_t in line 176,
    which has no defined result. *)
Definition times_init (l : list strat) (time_used time_limit : Q) (preproc : bool)
    (c : Z) (serialize : bool) : option (list strat * Z) :=
  let l := if preproc then shorten l c else l in
  let limit := Qceiling (time_limit - time_used) in
  if limit <? 0 then None
  else let '(l, c) := if preproc then give_cores l c serialize else (l, c) in
       Some (give_times preproc serialize limit 0 l, c).

(** PROVER/eprover.c:716-733: when the search schedule is exhausted and more
    than two seconds (RETRY_DEFAULT_SCHEDULE_THRESHOLD, cco_scheduling.h:55) of
    [limit] are left after the process and its children have used [own] and
    [children], the default schedule gets the rest, as an int. *)
Definition retry (limit own children : Q) : option Z :=
  let remaining := (limit - (own + children))%Q in
  if Qle_bool remaining 2 then None else Some (Qfloor remaining).

(** ** Running a schedule *)

(** strstr: does [pat] occur in [s]? *)
Fixpoint starts (pat s : text) : bool :=
  match pat, s with
  | [], _ => true
  | a :: pat', b :: s' => Ascii.eqb a b && starts pat' s'
  | _, _ => false
  end.

Fixpoint strstr (s pat : text) : bool :=
  starts pat s || match s with [] => false | _ :: s' => strstr s' pat end.

(** ProverResult, CONTROL/cco_proc_ctrl.h *)
Inductive answer := PRTheorem | PRUnsat | PRSat | PRCounterSat | PRFailure.

(** EGPCtrlGetResult, cco_gproc_ctrl.c:233-256; the strings are those of
    cco_proc_ctrl.h:69-73 with the default comment character, clb_defines.h:77. *)
Definition classify (out : text) : answer :=
  if strstr out (str "% SZS status Theorem") then PRTheorem
  else if strstr out (str "% SZS status ContradictoryAxioms") then PRTheorem
  else if strstr out (str "% SZS status Unsatisfiable") then PRUnsat
  else if strstr out (str "% SZS status Satisfiable") then PRSat
  else if strstr out (str "% SZS status CounterSatisfiable") then PRCounterSat
  else PRFailure.

(** DStrAppendStr(ctrl->output, buffer), cco_gproc_ctrl.c:226: a C string ends
    with its first NUL. *)
Fixpoint cstring (t : text) : text :=
  match t with
  | [] => []
  | c :: t' => if Ascii.eqb c zero then [] else c :: cstring t'
  end.

(** EGPCtrlCell; a child is known by the index of its strategy (there: by its
    pipe, which the operating system numbers). *)
Record proc := mkproc { pidx : nat; pcores : Z; pout : text }.

(** What the parent does, as seen from outside, and what it sees.  The limit
    is the CPU time limit of the child, if one is set. *)
Inductive event :=
| Started (k : nat) (heu : string) (n : Z) (limit : option Z)
| Read (k : nat) (chunk : text)
| Ended (k : nat) (status : Z)
| Killed (k : nat)
| Printed (out : text).

(** What reading from a ready pipe gives, EGPCtrlGetResult: a chunk of output,
    or the end, with the exit status (-1 if killed). *)
Inductive reading := Data (chunk : text) | Eof (status : Z).

(** One call of EGPCtrlSetGetResult: select fails ([None]) or reports ready
    children; and whether SIGTERM has been caught afterwards.  The pipes are
    read in the order of their numbers; as these are the operating system's
    choice, the order is arbitrary here. *)
Record input := mkinput { ready : option (list (nat * reading)); term : bool }.

(** The local state of ExecuteScheduleMultiCore: the strategies not yet
    started and the index of the first of them, EGPCtrlSet (the children and
    cores_reserved), and the events so far, latest first. *)
Record state := mkstate {
  todo : list strat; nexti : nat; procs : list proc; reserved : Z; trace : list event }.

(** EGPCtrlCreate and EGPCtrlSetAddProc, cco_gproc_ctrl.c:151-194, 335-342 *)
Definition start (st : state) (s : strat) (rest : list strat) : state :=
  mkstate rest (S (nexti st)) (mkproc (nexti st) (cores s) [] :: procs st)
    (reserved st + cores s)
    (Started (nexti st) (name s) (cores s) (if tabs s =? 0 then None else Some (tabs s))
       :: trace st).

(** cco_scheduling.c:267-296 *)
Fixpoint launch_list (max : Z) (l : list strat) (st : state) : state :=
  match l with
  | [] => st
  | s :: l' => if cores s <=? max - reserved st then launch_list max l' (start st s l') else st
  end.

Definition launch (max : Z) (st : state) : state := launch_list max (todo st) st.

(** EGPCtrlSetFindProc, cco_gproc_ctrl.c:357-368 *)
Definition find_proc (k : nat) (l : list proc) : option proc :=
  find (fun p => (pidx p =? k)%nat) l.

(** NumTreeExtractEntry in EGPCtrlSetDeleteProc, cco_gproc_ctrl.c:383-399 *)
Definition drop_proc (k : nat) (l : list proc) : list proc :=
  filter (fun p => negb (pidx p =? k)%nat) l.

Definition add_out (k : nat) (t : text) (l : list proc) : list proc :=
  map (fun p => if (pidx p =? k)%nat then mkproc (pidx p) (pcores p) (pout p ++ t) else p) l.

Inductive outcome :=
| Answer (out : text) (status : Z)   (* exit with the status of a child *)
| Stopped                            (* exit(PARENT_REQUEST) *)
| Exhausted.                         (* return SCHEDULE_DONE *)

(** The loop of EGPCtrlSetGetResult, cco_gproc_ctrl.c:470-502.  Children that
    are not in the set are not in the set of descriptors either. *)
Fixpoint poll (st : state) (l : list (nat * reading)) : state * option (proc * Z) :=
  match l with
  | [] => (st, None)
  | (k, r) :: l' =>
    match find_proc k (procs st) with
    | None => poll st l'
    | Some p =>
      match r with
      | Data t => poll (mkstate (todo st) (nexti st) (add_out k (cstring t) (procs st))
                          (reserved st) (Read k t :: trace st)) l'
      | Eof status =>
        let st' := mkstate (todo st) (nexti st) (procs st) (reserved st)
                           (Ended k status :: trace st) in
        match classify (pout p) with
        | PRFailure => poll (mkstate (todo st) (nexti st) (drop_proc k (procs st))
                               (reserved st - pcores p) (trace st')) l'
        | _ => (st', Some (p, status))
        end
      end
    end
  end.

(** EGPCtrlSetFree(procs, true), cco_gproc_ctrl.c:313-320, with EGPCtrlCleanup,
    113-132: children that have ended already (pid is 0) are not killed. *)
Definition kill_all (but : option nat) (st : state) : list event :=
  rev (map (fun p => Killed (pidx p))
         (filter (fun p => match but with Some k => negb (pidx p =? k)%nat | None => true end)
                 (procs st)))
  ++ trace st.

(** One round of the loop of ExecuteScheduleMultiCore, cco_scheduling.c:265-313;
    either the new state or the outcome and all events, latest first.
    Simplified: the exit status is read from the child's record after this has
    been freed in line 305 (see DESIGN.md). *)
Definition round (max : Z) (st : state) (i : input) : state + outcome * list event :=
  let st := launch max st in
  let '(st, res) := match ready i with None => (st, None) | Some l => poll st l end in
  match res with
  | Some (p, status) =>
    inr (Answer (pout p) status,
         kill_all (Some (pidx p)) (mkstate (todo st) (nexti st) (procs st) (reserved st)
                                     (Printed (pout p) :: trace st)))
  | None =>
    if term i then inr (Stopped, kill_all None st)
    else match procs st, todo st with
         | [], [] => inr (Exhausted, kill_all None st)
         | _, _ => inl st
         end
  end.

Fixpoint rounds (max : Z) (st : state) (l : list input) : state + outcome * list event :=
  match l with
  | [] => inl st
  | i :: l' => match round max st i with inl st' => rounds max st' l' | inr r => inr r end
  end.

(** ExecuteScheduleMultiCore after ScheduleTimesInitMultiCore *)
Definition execute (l : list strat) (max : Z) (ins : list input) :=
  rounds max (mkstate l 0 [] 0 []) ins.

(** ** Putting schedules together *)

Definition swap {A} (i j : nat) (l : list A) : list A :=
  match nth_error l i, nth_error l j with
  | Some x, Some y =>
    map (fun n => match nth_error l (if (n =? i)%nat then j else if (n =? j)%nat then i else n)
                  with Some z => z | None => x end) (seq 0 (length l))
  | _, _ => l
  end.

(** The cells before the first one without a name *)
Fixpoint upto_null (l : list (option strat)) : list strat :=
  match l with Some s :: l' => s :: upto_null l' | _ => [] end.

(** The search in InitializePlaceholderSearchSchedule, cco_scheduling.c:349-358:
    the cells before the placeholder, the placeholder, the cells behind it, and
    force_preproc.  [None]: the loop runs over the end of the schedule. *)
Fixpoint find_placeholder (l : list strat) (pre : string) (force : bool)
  : option (list strat * strat * list strat * bool) :=
  match l with
  | [] => None
  | s :: l' =>
    if String.eqb (name s) "<placeholder>" then Some ([], s, l', force)
    else match find_placeholder l' pre (if String.eqb (name s) pre then false else force) with
         | Some (a, h, b, f) => Some (s :: a, h, b, f)
         | None => None
         end
  end.

(** InitializePlaceholderSearchSchedule, cco_scheduling.c:341-375 *)
Definition init_placeholder (l : list strat) (pre : string) (force : bool) : option (list strat) :=
  match find_placeholder l pre force with
  | None => None
  | Some (a, h, b, false) => Some a
  | Some (a, h, b, true) =>
    let new := mkstrat pre (1 # 10) (tabs h) (cores h) in
    let a' := map (fun s => with_frac s (frac s * (9 # 10))%Q) a in
    Some (upto_null (swap (length a) 1 (map Some (a' ++ new :: b) ++ [None])))
  end.

(** name_in_schedule, cco_scheduling.c:54-62 *)
Fixpoint name_in (n : string) (l : list strat) : bool :=
  match l with [] => false | s :: l' => String.eqb n (name s) || name_in n l' end.

(** The loop of GetFilteredDefaultSchedule, cco_scheduling.c:394-401, [n] steps
    from index [i]; [last] is last_filtered + 1. *)
Fixpoint partition (old : list strat) (n i last : nat) (arr : list strat) : list strat * nat :=
  match n with
  | 0%nat => (arr, last)
  | S n' =>
    match nth_error arr i with
    | None => (arr, last)
    | Some s =>
      if name_in (name s) old then partition old n' (S i) last arr
      else partition old n' (S i) (S last) (swap last i arr)
    end
  end.

(** GetFilteredDefaultSchedule, cco_scheduling.c:390-411.  The ratio 1/0 of an
    empty result is 0 here and infinite there, and is not used. *)
Definition filtered_default (default old : list strat) : list strat :=
  let '(arr, last) := partition old (length default) 0 0 default in
  let ratio := (1 / inject_Z (Z.of_nat last))%Q in
  map (fun p => if (fst p <? pred last)%nat then with_frac (snd p) ratio else snd p)
      (combine (seq 0 last) (firstn last arr)).

(** StrDistance, BASICS/clb_simple_stuff.c:71-91 *)
Fixpoint distance (a b : text) : nat :=
  match a, b with
  | x :: a', y :: b' => (if Ascii.eqb x y then 0 else 1) + distance a' b'
  | _, _ => length a + length b
  end.

(** StrSchedPair: key, class_size; and the value, here of any type *)
Record sclass {A} := mkclass { key : text; csize : Z; value : A }.
Arguments sclass : clear implicits.
Arguments mkclass {A} _ _ _.

(** class_to_schedule, che_new_autoschedule.c:42-76; the accumulator is the
    choice so far with its distance and max_class_size (the start values
    INT_MAX and INT_MIN are no choice). *)
Fixpoint choose {A} (cat : text) (best : option (sclass A * nat * Z)) (l : list (sclass A))
  : option (sclass A) :=
  match l with
  | [] => match best with Some (c, _, _) => Some c | None => None end
  | c :: l' =>
    let d := distance (key c) cat in
    if (d =? 0)%nat then Some c
    else match best with
         | None => choose cat (Some (c, d, csize c)) l'
         | Some (b, bd, bs) =>
           if (d <? bd)%nat then choose cat (Some (c, d, csize c)) l'
           else if (d =? bd)%nat && (bs <? csize c) then choose cat (Some (c, d, csize c)) l'
           else choose cat best l'
         end
  end.

Definition class_to_schedule {A} (cat : text) (l : list (sclass A)) : option (sclass A) :=
  choose cat None l.
