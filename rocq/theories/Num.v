(** * Model of the normal forms of numerals (TERMS/cte_functypes.c) and of the scanner's string tokens (INOUT/cio_scanner.c)

    A numeral in the input becomes a constant whose name is the normalised text; constants of integers, rationals and reals are
    treated as distinct objects (FPDistinctProp), so two names mean two numbers. *)
From Coq Require Import String Ascii List ZArith QArith Qabs Lia Bool Arith.
From Verif Require Import Sig.
Import ListNotations.
Local Open Scope nat_scope.
Local Open Scope list_scope.

Definition chr (d : nat) : ascii := ascii_of_nat (48 + d).
Definition isdigit (c : ascii) : bool := (48 <=? nat_of_ascii c) && (nat_of_ascii c <=? 57).
Definition digit_val (c : ascii) : Z := Z.of_nat (nat_of_ascii c - 48).

(** normalize_int_rep, cte_functypes.c:65-100 *)
Fixpoint skip_zeros (s : string) : string :=
  match s with String c s' => if Ascii.eqb c "0" then skip_zeros s' else s | EmptyString => EmptyString end.
Definition take_sign (s : string) : string * string :=
  match s with
  | String c s' => if Ascii.eqb c "+" then (EmptyString, s') else if Ascii.eqb c "-" then ("-"%string, s') else (EmptyString, s)
  | EmptyString => (EmptyString, s)
  end.
Definition normalize_int (s : string) : string :=
  let '(sign, work) := take_sign s in
  match skip_zeros work with
  | EmptyString => "0"%string
  | w => (sign ++ w)%string
  end.

(** strtoll with base 10 on text without leading blanks: the value is cut off at the ends of the range of long long; the rest of the
    text is returned *)
Definition LMAX : Z := (2 ^ 63 - 1)%Z.
Definition LMIN : Z := (- 2 ^ 63)%Z.
Fixpoint read_digits (acc : Z) (s : string) : Z * string :=
  match s with
  | String c s' => if isdigit c then read_digits (10 * acc + digit_val c)%Z s' else (acc, s)
  | EmptyString => (acc, s)
  end.
Definition strtoll (s : string) : Z * string :=
  let '(sign, work) := take_sign s in
  let '(v, rest) := read_digits 0 work in
  let v := match sign with EmptyString => v | _ => Z.opp v end in
  (Z.max LMIN (Z.min LMAX v), rest).
(** ComputeGCD, clb_simple_stuff.c:313-339; the remainder of C on non-negative numbers; [None]: fuel exhausted *)
Fixpoint gcd_loop (fuel : nat) (a b : Z) : option Z :=
  match fuel with
  | 0 => None
  | S m => if (a =? 0)%Z then Some b else if (b =? 0)%Z then Some a else if (b <? a)%Z then gcd_loop m (Z.rem a b) b else gcd_loop m a (Z.rem b a)
  end.
Definition compute_gcd (a b : Z) : option Z := if (a <? 0)%Z || (b <? 0)%Z then Some 0%Z else gcd_loop (Z.to_nat (Z.log2 a + Z.log2 b + 3)) a b.
(** DStrAppendInt, clb_dstrings.c: "%ld" *)
Definition print_long (z : Z) : string :=
  match Z.to_int z with Decimal.Pos u => digits u | Decimal.Neg u => String "-" (digits u) end.
Inductive outcome := Rejected | Overflow | Norm (s : string).
(** normalize_rational_rep, cte_functypes.c:116-162; [Overflow]: numerator*-1 or denominator*-1 is not representable. *)
Definition negate (z : Z) : option Z := if (z =? LMIN)%Z then None else Some (- z)%Z.
Definition normalize_rational (s : string) : outcome :=
  let '(num, rest) := strtoll s in
  match rest with
  | String c rest' =>
      if Ascii.eqb c "/" then
        let '(den, rest2) := strtoll rest' in
        match rest2 with
        | EmptyString =>
            if (den =? 0)%Z then Rejected else
            let n := if (num <? 0)%Z then negate num else Some num in
            let d := if (den <? 0)%Z then negate den else Some den in
            let neg := xorb (num <? 0)%Z (den <? 0)%Z in
            match n, d with
            | Some n, Some d =>
                match compute_gcd n d with
                | None => Overflow
                | Some g =>
                    let n := Z.quot n g in let d := Z.quot d g in
                    Norm (print_long (if neg then (- n)%Z else n) ++ "/" ++ print_long d)%string
                end
            | _, _ => Overflow
            end
        | _ => Rejected
        end
      else Rejected
  | EmptyString => Rejected
  end.

(** normalize_float_rep, cte_functypes.c:178-202, for values below 1000: a double is a sign and a magnitude; "%f" prints the sign, and
    the magnitude rounded to a multiple of 10^-6 *)
Record dbl := { dneg : bool; dmag : Q }.
(** "%f": [r] is the multiple that is printed *)
Definition prints_as (d : dbl) (r : Z) : Prop := (Qabs (dmag d * inject_Z 1000000 - inject_Z r) <= 1 # 2)%Q.
Definition normalize_float (d : dbl) (r : Z) : string :=
  let p := print_long (r mod 1000000) in
  ((if dneg d then "-" else "") ++ print_long (r / 1000000) ++ "." ++ String.concat "" (repeat "0"%string (6 - String.length p)) ++ p)%string.

(** scan_string, cio_scanner.c:265-300: [inp] is the input after the delimiter; [curr] is the variable of the C function, which keeps
    its value when [escape] is set, since the assignment is in the second operand of ||.  The result is the token and the rest of the
    input; [None]: AktTokenError (non-printable character or end of file). *)
Definition isprint (c : ascii) : bool := (32 <=? nat_of_ascii c) && (nat_of_ascii c <=? 126).
Definition backslash : ascii := "\".
Fixpoint scan_loop (delim : ascii) (escape : bool) (curr : ascii) (inp : string) (lit : string) : option (string * string) :=
  match inp with
  | EmptyString => None
  | String c inp' =>
      let curr := if escape then curr else c in
      if negb escape && Ascii.eqb curr delim then Some ((lit ++ String curr EmptyString)%string, inp')
      else if negb (isprint curr) && (nat_of_ascii curr <=? 127) then None
      else scan_loop delim (if Ascii.eqb curr backslash then negb escape else false) curr inp' (lit ++ String curr EmptyString)%string
  end.
Definition scan_string (inp : string) : option (string * string) :=
  match inp with
  | String delim inp' => scan_loop delim false delim inp' (String delim EmptyString)
  | EmptyString => None
  end.

(** ** Specification *)
(** a numeral: an optional sign and digits *)
Record numeral := { nsign : option bool; nds : list nat }.
Definition numeral_ok (a : numeral) : Prop := nds a <> [] /\ Forall (fun d => d < 10) (nds a).
Definition value_digits (l : list nat) : Z := fold_left (fun v d => (10 * v + Z.of_nat d)%Z) l 0%Z.
Definition value (a : numeral) : Z := match nsign a with Some true => (- value_digits (nds a))%Z | _ => value_digits (nds a) end.
Definition text (a : numeral) : string :=
  ((match nsign a with None => "" | Some false => "+" | Some true => "-" end) ++ string_of_list_ascii (map chr (nds a)))%string.
Definition ratio_text (a b : numeral) : string := (text a ++ "/" ++ text b)%string.

(** the text between the delimiters, with the escapes \\ and \delimiter of the TPTP language *)
Inductive item := Plain (c : ascii) | Escaped (c : ascii).
Definition item_ok (delim : ascii) (i : item) : Prop :=
  match i with
  | Plain c => (isprint c = true \/ 127 < nat_of_ascii c) /\ c <> delim /\ c <> backslash
  | Escaped c => c = delim \/ c = backslash
  end.
Definition item_text (i : item) : string := match i with Plain c => String c EmptyString | Escaped c => String backslash (String c EmptyString) end.
Fixpoint items_text (l : list item) : string := match l with [] => EmptyString | i :: l' => (item_text i ++ items_text l')%string end.
Definition string_text (delim : ascii) (l : list item) : string := (String delim (items_text l ++ String delim EmptyString))%string.
