(** What is claimed of running a schedule, in terms of the events seen from
    outside, in the order in which they happen. *)
From Coq Require Import Arith.Arith ZArith QArith Qround String Ascii List Bool.
From Verif Require Import Sched.
Import ListNotations.
Local Open Scope list_scope.
Local Open Scope Z_scope.

(** The events of an execution, first to last. *)
Definition history (r : state + outcome * list event) : list event :=
  rev (match r with inl st => trace st | inr (_, t) => t end).

(** The children that have been started, with what they were given. *)
Definition starts_of (h : list event) : list (nat * string * Z * option Z) :=
  flat_map (fun e => match e with Started k s n x => [(k, s, n, x)] | _ => [] end) h.

(** The end of a child. *)
Definition ends_child (k : nat) (e : event) : bool :=
  match e with Ended j _ | Killed j => (j =? k)%nat | _ => false end.

Definition gone (h : list event) (k : nat) : Prop := exists e, In e h /\ ends_child k e = true.

Definition started (h : list event) (k : nat) : Prop :=
  exists s n x, In (Started k s n x) h.

Definition alive (h : list event) (k : nat) : Prop := started h k /\ ~ gone h k.

(** The cores of the children that are running after [h]. *)
Fixpoint sum (l : list Z) : Z := match l with [] => 0 | x :: l' => x + sum l' end.

Definition cores_in_use (h : list event) : Z :=
  sum (map (fun c => match c with (k, _, n, _) => if existsb (ends_child k) h then 0 else n end)
           (starts_of h)).

(** What a child has written, as far as it can be shown as a string. *)
Definition written (h : list event) (k : nat) : text :=
  flat_map (fun e => match e with
                     | Read j t => if (j =? k)%nat then cstring t else []
                     | _ => []
                     end) h.

(** A text that gives an answer to the problem. *)
Definition answers (t : text) : Prop :=
  exists w a b, In w ["Theorem"; "ContradictoryAxioms"; "Unsatisfiable"; "Satisfiable";
                      "CounterSatisfiable"]%string /\
    t = a ++ str "% SZS status " ++ str w ++ b.

(** The schedule as a list of what is to be started. *)
Definition plan (l : list strat) : list (nat * string * Z * option Z) :=
  map (fun p => (fst p, name (snd p), cores (snd p),
                 if tabs (snd p) =? 0 then None else Some (tabs (snd p))))
      (combine (seq 0 (length l)) l).

(** Every strategy fits on the machine. *)
Definition fits (max : Z) (l : list strat) : Prop :=
  forall s, In s l -> 1 <= cores s <= max.

(** Nothing happens in a round. *)
Definition quiet : input := mkinput (Some []) false.

(** The sum of the fractions of a schedule. *)
Definition fractions (l : list strat) : Q := fold_right (fun s q => frac s + q)%Q 0%Q l.

(** The number of places at which two strings differ, the shorter one being
    filled up with something else. *)
Definition differ (a b : text) (i : nat) : bool :=
  match nth_error a i, nth_error b i with
  | Some x, Some y => negb (Ascii.eqb x y)
  | None, None => false
  | _, _ => true
  end.

Definition differences (a b : text) : nat :=
  length (filter (differ a b) (seq 0 (max (length a) (length b)))).
