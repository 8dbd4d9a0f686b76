(** How a command line is to be read, how numbers are to be written in it,
    and how a description is laid out. *)

From Coq Require Import ZArith String Ascii List Bool.
From Verif Require Import CmdLine.
Import ListNotations.
Local Open Scope Z_scope.

Definition text (s : string) : str := list_ascii_of_string s.

(** [o] is the first of the options with a property. *)
Definition first_with {A} (P : A -> Prop) (os : list A) (o : A) : Prop :=
  exists l1 l2, os = l1 ++ o :: l2 /\ P o /\ (forall x, In x l1 -> ~ P x).

Definition named (os : list opt) (name : str) : opt -> Prop :=
  first_with (fun o => o_long o = Some name) os.

Definition lettered (os : list opt) (c : ascii) : opt -> Prop :=
  first_with (fun o => o_short o = c) os.

(** The argument of an option that was written without one. *)
Definition without (o : opt) : option str :=
  match o_kind o with OptArg => o_default o | _ => None end.

(** Arguments that are no options: the empty one, "-", and all that do not
    start with a hyphen. *)
Definition plain (a : str) : Prop :=
  a = [dash] \/ match a with [] => True | c :: _ => c <> dash end.

(** [reads os l fs as_]: the command line [l] gives the options [fs], in
    this order, and leaves the arguments [as_]. *)
Inductive reads (os : list opt)
  : list str -> list (opt * option str) -> list str -> Prop :=
| r_end : reads os [] [] []
| r_plain : forall a l fs as_,
    plain a -> reads os l fs as_ -> reads os (a :: l) fs (a :: as_)
| r_stop : forall l, reads os (text "--" :: l) [] l
| r_long : forall name o l fs as_,
    name <> [] -> ~ In eqs name ->
    named os name o -> o_kind o <> ReqArg -> reads os l fs as_ ->
    reads os ((text "--" ++ name) :: l) ((o, without o) :: fs) as_
| r_long_arg : forall name v o l fs as_,
    ~ In eqs name ->
    named os name o -> o_kind o <> NoArg -> reads os l fs as_ ->
    reads os ((text "--" ++ name ++ text "=" ++ v) :: l)
          ((o, Some v) :: fs) as_
| r_letters : forall c cs hs l fs as_,
    c <> dash ->
    Forall2 (fun c o => lettered os c o /\ o_kind o <> ReqArg) (c :: cs) hs ->
    reads os l fs as_ ->
    reads os ((text "-" ++ c :: cs) :: l)
          (map (fun o => (o, without o)) hs ++ fs) as_
| r_letter_joined : forall c v o l fs as_,
    c <> dash -> v <> [] ->
    lettered os c o -> o_kind o = ReqArg -> reads os l fs as_ ->
    reads os ((text "-" ++ c :: v) :: l) ((o, Some v) :: fs) as_
| r_letter_next : forall c v o l fs as_,
    c <> dash ->
    lettered os c o -> o_kind o = ReqArg -> reads os l fs as_ ->
    reads os ((text "-" ++ [c]) :: v :: l) ((o, Some v) :: fs) as_.

(** The input files: standard input if none is given. *)
Definition inputs (as_ : list str) : list str :=
  match as_ with [] => [text "-"] | _ => as_ end.

(** C strings. *)
Definition c_string (s : str) : Prop := ~ In nul s.

(** A table of options as the programs have it: proper entries with a
    long name, and then the entry that ends it. *)
Definition table (os : list opt) (t : list opt) : Prop :=
  Forall (fun o => o_code o <> 0 /\ o_long o <> None) os /\
  exists e rest, t = os ++ e :: rest /\ o_code e = 0.

(* ------------------------------------------------------------------ *)

(** The value of a row of decimal digits. *)
Inductive decimal : str -> Z -> Prop :=
| dec_one : forall c, 48 <= Z.of_nat (nat_of_ascii c) <= 57 ->
    decimal [c] (Z.of_nat (nat_of_ascii c) - 48)
| dec_more : forall s n c, decimal s n ->
    48 <= Z.of_nat (nat_of_ascii c) <= 57 ->
    decimal (s ++ [c]) (10 * n + (Z.of_nat (nat_of_ascii c) - 48)).

(** White space, a sign, and digits. *)
Definition number (s : str) (n : Z) : Prop :=
  exists ws sg ds m,
    s = ws ++ sg ++ ds /\
    (forall c, In c ws -> In (nat_of_ascii c) [32; 9; 10; 11; 12; 13]%nat) /\
    decimal ds m /\
    (sg = [] /\ n = m \/ sg = text "+" /\ n = m \/ sg = text "-" /\ n = - m).

(* ------------------------------------------------------------------ *)

(** [laid_out w s ls]: the text [s] in lines of at most [w] characters.
    A line ends at a newline; or else at the last blank that keeps it
    shorter than [w]; or, if there is none, after [w] characters. *)
Inductive laid_out (w : nat) : str -> list str -> Prop :=
| lo_last : forall s,
    (length s < w)%nat -> ~ In nl s -> laid_out w s [s]
| lo_newline : forall l s ls,
    (length l < w)%nat -> ~ In nl l -> s <> [] -> laid_out w s ls ->
    laid_out w (l ++ nl :: s) (l :: ls)
| lo_newline_end : forall l,
    (length l < w)%nat -> ~ In nl l -> laid_out w (l ++ [nl]) [l]
| lo_blank : forall l r s ls,
    length (l ++ sp :: r) = w -> ~ In nl (l ++ sp :: r) -> ~ In sp r ->
    r ++ s <> [] -> laid_out w (r ++ s) ls ->
    laid_out w (l ++ sp :: r ++ s) (l :: ls)
| lo_blank_end : forall l,
    length (l ++ [sp]) = w -> ~ In nl l -> laid_out w (l ++ [sp]) [l]
| lo_hard : forall l s ls,
    length l = w -> ~ In nl l -> ~ In sp l -> laid_out w s ls ->
    laid_out w (l ++ s) (l :: ls).
