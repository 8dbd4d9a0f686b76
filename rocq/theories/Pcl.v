(** Extraction of proofs from PCL protocols (PCL2/pcl_protocol.c,
    PCL2/pcl_miniprotocol.c, PROVER/epclextract.c).

    A step is its identifier, what its justification refers to, its extra
    string and what the extraction asks about its clause or formula.  long
    is taken to be wide enough for the identifiers; int has 32 bits. *)

From Coq Require Import ZArith String Ascii List Bool.
Import ListNotations.
Local Open Scope Z_scope.

Definition str := list ascii.

Inductive out (A : Type) : Type :=
| Ok (a : A)
| Error            (** Error(..., SYNTAX_ERROR) *)
| Ub               (** undefined behaviour *)
| Tired.           (** the fuel of the model ran out *)
Arguments Ok {A}. Arguments Error {A}. Arguments Ub {A}. Arguments Tired {A}.

Definition bind {A B} (x : out A) (f : A -> out B) : out B :=
  match x with Ok a => f a | Error => Error | Ub => Ub | Tired => Tired end.
Notation "'do' x <- e ; f" := (bind e (fun x => f))
  (at level 200, x pattern, e at level 100, f at level 200).

(** PCL2/pcl_idents.h: the elements of an identifier, without the final
    NO_PCL_ID_ELEMENT. *)
Definition id := list Z.

(** PCL2/pcl_expressions.h lines 40-104: the expressions.  All operators but
    Initial and Quote are treated alike; positions are left out. *)
Inductive expr :=
| Initial
| Quote (i : id)
| Op (args : list expr).

(** PCL2/pcl_steps.h, PCL2/pcl_ministeps.h *)
Record step := mkstep {
  s_id : id;
  s_just : expr;
  s_extra : option str;
  s_shell : bool;      (** PCLStepIsShell *)
  s_fof : bool;        (** PCLStepIsFOF *)
  s_empty : bool       (** ClauseIsEmpty(step->logic.clause) *)
}.

(** The conversion of long to int. *)
Definition to_int (z : Z) : Z := (z + 2 ^ 31) mod 2 ^ 32 - 2 ^ 31.

(** PCL2/pcl_idents.c lines 158-181: PCLIdCompare(); NO_PCL_ID_ELEMENT is
    -1. *)
Fixpoint id_diff (a b : id) : Z :=
  match a, b with
  | [], [] => 0
  | [], y :: _ => -1 - y
  | x :: _, [] => x - -1
  | x :: a', y :: b' => if x - y =? 0 then id_diff a' b' else x - y
  end.
Definition PCLIdCompare (a b : id) : Z := to_int (id_diff a b).

(** PCL2/pcl_protocol.h lines 54-58: PCLProtInsertStep().  The splay tree is
    modelled as the list of its elements from left to right; what it does
    for a comparison that is no order is not modelled. *)
Fixpoint insert_step (s : step) (p : list step) : option (list step) :=
  match p with
  | [] => Some [s]
  | x :: p' =>
      let c := PCLIdCompare (s_id s) (s_id x) in
      if c <? 0 then Some (s :: p)
      else if c =? 0 then None
      else match insert_step s p' with Some q => Some (x :: q) | None => None end
  end.

(** PCL2/pcl_protocol.c lines 245-283: PCLProtParse(), of steps that have
    been read. *)
Fixpoint PCLProtParse (l : list step) (p : list step) : out (list step) :=
  match l with
  | [] => Ok p
  | s :: l' => match insert_step s p with
               | None => Error
               | Some q => PCLProtParse l' q
               end
  end.

(** PCL2/pcl_protocol.c lines 181-194: PCLProtFindStep(). *)
Definition PCLProtFindStep (p : list step) (i : id) : option step :=
  find (fun s => PCLIdCompare i (s_id s) =? 0) p.

Fixpoint starts (pre s : str) : bool :=
  match pre, s with
  | [], _ => true
  | x :: pre', y :: s' => Ascii.eqb x y && starts pre' s'
  | _, [] => false
  end.

Definition text (s : string) : str := list_ascii_of_string s.

(** PCL2/pcl_expressions.c lines 820-823: over a quote. *)
Definition unquote (e : str) : str :=
  match e with
  | c :: r => if Ascii.eqb c """" || Ascii.eqb c "'" then r else e
  | [] => e
  end.

(** PCL2/pcl_expressions.c lines 813-827: PCLStepExtract(). *)
Definition PCLStepExtract (extra : option str) : bool :=
  match extra with
  | None => false
  | Some e =>
      let e' := unquote e in
      starts (text "proof") e' || starts (text "final") e' ||
      starts (text "extract") e'
  end.

Fixpoint eqstr (a b : str) : bool :=
  match a, b with
  | [], [] => true
  | x :: a', y :: b' => Ascii.eqb x y && eqstr a' b'
  | _, _ => false
  end.

(** pcl_protocol.c lines 535-541, pcl_miniprotocol.c lines 407-413: the test
    for the end of a proof. *)
Definition ends (s : step) : bool :=
  (s_shell s && match s_extra s with
                | Some e => eqstr e (text "'proof'")
                | None => false
                end)
  || (negb (s_shell s) && negb (s_fof s) && s_empty s).

(** The identifiers in an expression, from left to right. *)
Fixpoint refs (e : expr) : list id :=
  match e with
  | Initial => []
  | Quote i => [i]
  | Op args => flat_map refs args
  end.

Fixpoint eqid (a b : id) : bool :=
  match a, b with
  | [], [] => true
  | x :: a', y :: b' => (x =? y) && eqid a' b'
  | _, _ => false
  end.

Definition marked (m : list id) (s : step) : bool :=
  existsb (eqid (s_id s)) m.

Section Marking.

(** The tree into which the steps referred to are collected is ordered by
    their addresses; [ord] stands for the order in which they come out of it
    and are pushed. *)
Variable ord : list (option step) -> list (option step).
Variable collect : step -> out (list (option step)).

(** pcl_protocol.c lines 548-562, pcl_miniprotocol.c lines 404-428: the loop
    over the stack; [m] holds the steps with the property PCLIsProofStep. *)
Fixpoint mark_loop (fuel : nat) (stack : list (option step)) (m : list id)
  (res : bool) : out (list id * bool) :=
  match fuel with
  | 0%nat => Tired
  | S n =>
      match stack with
      | [] => Ok (m, res)
      | None :: _ => Ub
      | Some s :: st =>
          let res' := res || ends s in
          if marked m s then mark_loop n st m res'
          else do p <- collect s;
               mark_loop n (ord p ++ st) (s_id s :: m) res'
      end
  end.

End Marking.

(** Rounds enough for a protocol. *)
Definition rounds (p : list step) : nat :=
  S (length p + fold_right (fun s n => length (refs (s_just s)) + n)%nat 0%nat p).

(** pcl_protocol.c lines 449-474: PCLExprCollectPreconds(). *)
Definition PCLExprCollectPreconds (p : list step) (s : step)
  : out (list (option step)) :=
  Ok (map (PCLProtFindStep p) (refs (s_just s))).

(** pcl_protocol.c lines 522-565: PCLProtMarkProofClauses(). *)
Definition PCLProtMarkProofClauses ord (p : list step) : out (list id * bool) :=
  let roots := rev (map Some (filter (fun s => PCLStepExtract (s_extra s)) p)) in
  do (m, _) <- mark_loop ord (PCLExprCollectPreconds p) (rounds p) roots [] false;
  Ok (m, existsb ends p).

(** PROVER/epclextract.c lines 184-262 without the option --fast-extract:
    the steps printed by PCLProtPrintPropClauses() (pcl_protocol.c lines
    699-717), and whether they are called a refutation. *)
Definition epclextract ord (l : list step) : out (list step * bool) :=
  do p <- PCLProtParse l [];
  do (m, res) <- PCLProtMarkProofClauses ord p;
  Ok (filter (marked m) p, res).

(* ------------------------------------------------------------------ *)
(** * The fast version *)

(** pcl_miniprotocol.c lines 122-140, 152-160: the protocol is an array
    indexed by the identifier, here a list of steps, and the greatest
    identifier. *)
Record mini := mkmini { m_steps : list step; m_max : Z }.

Definition PCLMiniProtFindStep (p : list step) (i : Z) : option step :=
  find (fun s => eqid (s_id s) [i]) p.

(** The identifier of a step of a mini protocol. *)
Definition num (i : id) : Z := match i with x :: _ => x | [] => 0 end.

Definition PCLMiniProtInsertStep (p : mini) (s : step) : option mini :=
  match PCLMiniProtFindStep (m_steps p) (num (s_id s)) with
  | Some _ => None
  | None => Some (mkmini (s :: m_steps p) (Z.max (num (s_id s)) (m_max p)))
  end.

(** pcl_miniprotocol.c lines 237-273: PCLMiniProtParse(). *)
Fixpoint PCLMiniProtParse (l : list step) (p : mini) : out mini :=
  match l with
  | [] => Ok p
  | s :: l' => match PCLMiniProtInsertStep p s with
               | None => Error
               | Some q => PCLMiniProtParse l' q
               end
  end.

(** pcl_miniprotocol.c lines 319-350: PCLMiniExprCollectPreconds(). *)
Fixpoint find_all (p : list step) (is_ : list id) : out (list (option step)) :=
  match is_ with
  | [] => Ok []
  | i :: r => match PCLMiniProtFindStep p (num i) with
              | None => Error
              | Some s => do q <- find_all p r; Ok (Some s :: q)
              end
  end.

(** pcl_miniprotocol.c lines 377-389: the last steps, from the last one
    down. *)
Fixpoint last_roots (fuel : nat) (p : list step) (i : Z) : list step :=
  match fuel with
  | 0%nat => []
  | S n => if i <? 0 then []
           else match PCLMiniProtFindStep p i with
                | Some s => if PCLStepExtract (s_extra s)
                            then s :: last_roots n p (i - 1) else []
                | None => []
                end
  end.

(** The numbers from 0 to the greatest identifier. *)
Definition upto (m : Z) : list Z := map Z.of_nat (seq 0 (Z.to_nat (m + 1))).

(** The steps in the array, from below. *)
Definition in_array (p : mini) : list step :=
  flat_map (fun i => match PCLMiniProtFindStep (m_steps p) i with
                     | Some s => [s] | None => [] end) (upto (m_max p)).

(** pcl_miniprotocol.c lines 367-431: PCLMiniProtMarkProofClauses() with the
    argument fast true. *)
Definition PCLMiniProtMarkProofClauses ord (p : mini) : out (list id * bool) :=
  let roots := last_roots (S (Z.to_nat (m_max p))) (m_steps p) (m_max p) in
  mark_loop ord (fun s => find_all (m_steps p) (refs (s_just s)))
    (rounds (m_steps p) + S (Z.to_nat (m_max p))) (rev (map Some roots)) [] false.

(** PROVER/epclextract.c lines 184-262 with the option --fast-extract, and
    PCLMiniProtPrintProofClauses() (pcl_miniprotocol.c lines 500-517). *)
Definition epclextract_fast ord (l : list step) : out (list step * bool) :=
  do p <- PCLMiniProtParse l (mkmini [] 0);
  do (m, res) <- PCLMiniProtMarkProofClauses ord p;
  Ok (filter (marked m) (in_array p), res).
