(** * Writing and reading formulas (C62): the printer (CLAUSES/ccl_tformulae.c:1546-1750, CLAUSES/ccl_eqn.c:1142-1210,
    TERMS/cte_termfunc.c:644-842), the scanner (INOUT/cio_scanner.c:92-620) and the parser (CLAUSES/ccl_tformulae.c:223-860, 1971-2015,
    CLAUSES/ccl_eqn.c:461-600, TERMS/cte_termbanks.c:500-735, 1716-1836, TERMS/cte_functypes.c:232-305, TERMS/cte_termvars.c:558-742)
    for first-order formulas in TSTP syntax.

    Characters are Coq's [ascii], text is a list of characters.  Terms are the trees behind the shared terms; symbols are given by the name
    under which they are found (f_info[].name, SigFindFCode), and printed by their print name (f_info[].pname, SigFindName).  Not modelled: $let, $ite, formulas as arguments (FOOL), the $distinct predicate, lists, rational numbers and floats,
    include directives, positions for error messages. *)
From Coq Require Import Ascii String List Arith Bool Lia DecimalNat.
Import ListNotations.
Local Open Scope string_scope.
Local Open Scope nat_scope.
Local Open Scope list_scope.

Definition text := list ascii.
Definition str (s : string) : text := list_ascii_of_string s.
Coercion str : string >-> text.
Definition text_eqb (a b : text) : bool := if list_eq_dec ascii_dec a b then true else false.
Definition code (c : ascii) : nat := nat_of_ascii c.
Definition is (c d : ascii) : bool := Ascii.eqb c d.

(** ** Characters: ctype.h in the C locale; isstartidchar, isidchar, isstartcomment, cio_scanner.h:181-184 *)
Definition isdigit (c : ascii) : bool := (48 <=? code c) && (code c <=? 57).
Definition isupper (c : ascii) : bool := (65 <=? code c) && (code c <=? 90).
Definition islower (c : ascii) : bool := (97 <=? code c) && (code c <=? 122).
Definition isalpha (c : ascii) : bool := isupper c || islower c.
Definition isspace (c : ascii) : bool := (code c =? 32) || ((9 <=? code c) && (code c <=? 13)).
Definition isprint (c : ascii) : bool := (32 <=? code c) && (code c <=? 126).
Definition isstartidchar (c : ascii) : bool := isalpha c || is c "_".
Definition isidchar (c : ascii) : bool := isalpha c || isdigit c || is c "_".
Definition isstartcomment (c : ascii) : bool := is c "#" || is c "%".
Definition squote : ascii := "'".
Definition dquote : ascii := ascii_of_nat 34.
Definition backslash : ascii := "\".
Definition newline : ascii := ascii_of_nat 10.

(** ** Tokens, cio_scanner.h:49-102; [Identifier] is Ident or Idnum *)
Inductive tok : Set :=
| Identifier (s : text) | SemIdent (s : text) | LetToken | IteToken | Str (s : text) | SQStr (s : text) | PosInt (s : text)
| OpenBracket | CloseBracket | OpenCurly | CloseCurly | OpenSquare | CloseSquare | LesserSign | GreaterSign | EqualSign | NegEqualSign
| TildeSign | Exclamation | QuestionMark | Comma | Semicolon | Colon | Hyphen | Plus | Mult | Fullstop | Dollar | Slash | Pipe | Ampersand
| FOFLRImpl | FOFRLImpl | FOFEquiv | FOFXor | FOFNand | FOFNor | Application | Carret.
(** with the flag [skipped] (white space or comment before it) *)
Definition token : Set := bool * tok.

(** the longest prefix of characters with [p] *)
Fixpoint span (p : ascii -> bool) (s : text) : text * text :=
  match s with
  | [] => ([], [])
  | c :: s' => if p c then let '(a, b) := span p s' in (c :: a, b) else ([], s)
  end.

(** scan_string, cio_scanner.c:266-298.  After a backslash the loop condition does not read the next character: the old one is appended
    once more (C46). *)
Fixpoint scan_str (delim : ascii) (escape : bool) (curr : ascii) (inp acc : text) : option (text * text) :=
  match inp with
  | [] => None
  | c :: inp' =>
      let cur := if escape then curr else c in
      if negb escape && is c delim then Some (rev (c :: acc), inp')
      else if negb (isprint cur) && (code cur <=? 127) then None
      else scan_str delim (if is cur backslash then negb escape else false) cur inp' (cur :: acc)
  end.

(** scan_C_comment, cio_scanner.c:238-253 *)
Fixpoint scan_C_comment (inp : text) : option text :=
  match inp with
  | "*"%char :: "/"%char :: r => Some r
  | _ :: r => scan_C_comment r
  | [] => None
  end.

Inductive scanned := SEnd | SSkip (r : text) | STok (t : tok) (r : text) | SError.

(** the operators of scan_token, cio_scanner.c:376-512 *)
Definition scan_sym (c : ascii) (r : text) : scanned :=
  match c, r with
  | "("%char, _ => STok OpenBracket r
  | ")"%char, _ => STok CloseBracket r
  | "{"%char, _ => STok OpenCurly r
  | "}"%char, _ => STok CloseCurly r
  | "["%char, _ => STok OpenSquare r
  | "]"%char, _ => STok CloseSquare r
  | "<"%char, "~"%char :: ">"%char :: r' => STok FOFXor r'
  | "<"%char, "="%char :: ">"%char :: r' => STok FOFEquiv r'
  | "<"%char, "="%char :: r' => STok FOFRLImpl r'
  | "<"%char, _ => STok LesserSign r
  | ">"%char, _ => STok GreaterSign r
  | "="%char, ">"%char :: r' => STok FOFLRImpl r'
  | "="%char, _ => STok EqualSign r
  | "~"%char, "|"%char :: r' => STok FOFNor r'
  | "~"%char, "&"%char :: r' => STok FOFNand r'
  | "~"%char, _ => STok TildeSign r
  | "!"%char, "="%char :: r' => STok NegEqualSign r'
  | "!"%char, _ => STok Exclamation r
  | "?"%char, _ => STok QuestionMark r
  | ","%char, _ => STok Comma r
  | ";"%char, _ => STok Semicolon r
  | ":"%char, _ => STok Colon r
  | "-"%char, _ => STok Hyphen r
  | "+"%char, _ => STok Plus r
  | "*"%char, _ => STok Mult r
  | "."%char, _ => STok Fullstop r
  | "|"%char, _ => STok Pipe r
  | "/"%char, _ => STok Slash r
  | "&"%char, _ => STok Ampersand r
  | "$"%char, _ => STok Dollar r
  | "@"%char, _ => STok Application r
  | "^"%char, _ => STok Carret r
  | _, _ => SError
  end.

(** scan_token, cio_scanner.c:317-515 *)
Definition scan_token (s : text) : scanned :=
  match s with
  | [] => SEnd
  | c :: r =>
      if isspace c then SSkip (snd (span isspace s))
      else if isstartidchar c then let '(a, b) := span isidchar s in STok (Identifier a) b
      else if isdigit c then let '(a, b) := span isdigit s in STok (PosInt a) b
      else if isstartcomment c then SSkip (tl (snd (span (fun x => negb (is x newline)) s)))
      else if is c "/" && match r with d :: _ => is d "*" | [] => false end then match scan_C_comment s with Some r' => SSkip r' | None => SError end
      else if is c dquote || is c squote then
        match scan_str c false c r [c] with
        | Some (l, r') => STok (if is c squote then SQStr l else Str l) r'
        | None => SError
        end
      else if is c "$" && match r with d :: _ => isidchar d | [] => false end then
        let '(a, b) := span isidchar r in
        let l := c :: a in
        STok (if text_eqb l "$let" then LetToken else if text_eqb l "$ite" then IteToken else SemIdent l) b
      else scan_sym c r
  end.

(** all tokens, as NextToken reads them one after the other; scan_real_token, cio_scanner.c:602-622 *)
Inductive lexed := Tokens (l : list token) | LexError | LexFuel.
Definition lcons (t : token) (l : lexed) : lexed := match l with Tokens l => Tokens (t :: l) | e => e end.
Fixpoint tokens (fuel : nat) (skipped : bool) (s : text) : lexed :=
  match fuel with
  | 0 => LexFuel
  | S n => match scan_token s with
           | SEnd => Tokens []
           | SSkip r => tokens n true r
           | STok t r => lcons (skipped, t) (tokens n false r)
           | SError => LexError
           end
  end.
Definition tokenize (s : text) : lexed := tokens (S (length s)) false s.

(** ** Terms and formulas *)
(** variables: the negated f_code, from 1 *)
Inductive tm : Set := TV (x : nat) | TF (f : text) (args : list tm).
Inductive op : Set := And | Or | Impl | BImpl | Equiv | Xor | Nand | Nor.
(** [Lit]: a term with eqn_code or neqn_code; atoms are equations with $true (EncodePredicateAsEqn, ccl_tformulae.c:1313) *)
Inductive fm : Set := Lit (pos : bool) (l r : tm) | Not (f : fm) | Bin (o : op) (f g : fm) | Qu (all : bool) (x : nat) (f : fm).
Definition ttrue : tm := TF "$true" [].
Definition tfalse : tm := TF "$false" [].
Fixpoint tm_eqb (s t : tm) : bool :=
  match s, t with
  | TV x, TV y => x =? y
  | TF f a, TF g b => text_eqb f g && (fix go (a b : list tm) : bool := match a, b with [], [] => true | s :: a', t :: b' => tm_eqb s t && go a' b' | _, _ => false end) a b
  | _, _ => false
  end.

(** ** The printer *)
(** %ld *)
Fixpoint uint_text (d : Decimal.uint) : text :=
  match d with
  | Decimal.Nil => []
  | Decimal.D0 d => "0"%char :: uint_text d | Decimal.D1 d => "1"%char :: uint_text d | Decimal.D2 d => "2"%char :: uint_text d
  | Decimal.D3 d => "3"%char :: uint_text d | Decimal.D4 d => "4"%char :: uint_text d | Decimal.D5 d => "5"%char :: uint_text d
  | Decimal.D6 d => "6"%char :: uint_text d | Decimal.D7 d => "7"%char :: uint_text d | Decimal.D8 d => "8"%char :: uint_text d
  | Decimal.D9 d => "9"%char :: uint_text d
  end.
Definition decimal (n : nat) : text := uint_text (Nat.to_uint n).
(** VarPrint, cte_termfunc.c:644-655: with var = -x, -((var-1)/2) is (x+1)/2 *)
Definition pr_var (x : nat) : text := (if Nat.odd x then "Y"%char else "X"%char) :: decimal ((x + 1) / 2).
(** EqnAlloc, ccl_eqn.c:613-678: $false is replaced by $true and a change of sign, $true goes to the right *)
Definition eqn_alloc (pos : bool) (l r : tm) : bool * tm * tm :=
  let '(pos, l) := if tm_eqb l tfalse then (negb pos, ttrue) else (pos, l) in
  let '(pos, r) := if tm_eqb r tfalse then (negb pos, ttrue) else (pos, r) in
  if tm_eqb l ttrue then (pos, r, l) else (pos, l, r).
Definition op_text (o : op) : text :=
  match o with And => "&" | Or => "|" | Impl => "=>" | BImpl => "<=" | Equiv => "<=>" | Xor => "<~>" | Nand => "~&" | Nor => "~|" end.

Definition default_sort : text := "$i".

Section Print.
(** the sort of each variable, and the print name of each symbol *)
Variables (vsort : nat -> text) (pname : text -> text).
(** TermPrintFO and TermPrintArgList, cte_termfunc.c:669-720, 825-842 *)
Fixpoint pr_tm (t : tm) : text :=
  match t with
  | TV x => pr_var x
  | TF f args => pname f ++ match args with
                      | [] => []
                      | a :: l => "("%char :: pr_tm a ++ (fix go (l : list tm) : text := match l with [] => [] | u :: l' => ","%char :: pr_tm u ++ go l' end) l ++ [")"%char]
                      end
  end.
(** EqnFOFPrint, ccl_eqn.c:1142-1189 (infix), called from TFormulaTPTPPrint, ccl_tformulae.c:1606-1617 *)
Definition pr_lit (pos : bool) (l r : tm) : text :=
  let '(p, l, r) := eqn_alloc true l r in
  let positive := xorb p (negb pos) in
  if tm_eqb r ttrue
  then (if positive then [] else str "~") ++ pr_tm l
  else pr_tm l ++ (if positive then [] else str "!") ++ str "=" ++ pr_tm r.
(** a variable after a quantifier, ccl_tformulae.c:1645-1650: sorts other than the default are printed *)
Definition pr_qvar (x : nat) : text := pr_var x ++ (if text_eqb (vsort x) default_sort then [] else ":"%char :: vsort x).
(** TFormulaTPTPPrint, ccl_tformulae.c:1602-1749; [Chain]: tformula_print_or_chain, 1546-1561; [Tail q]: the loop over the variables of
    equal quantifiers and what follows, 1651-1664 *)
Inductive mode := Plain | Chain | Tail (q : bool).
Fixpoint pr (m : mode) (f : fm) : text :=
  let plain :=
    match f with
    | Lit pos l r => pr_lit pos l r
    | Qu q x g => (if q then str "![" else str "?[") ++ pr_qvar x ++ pr (Tail q) g
    | Not g => str "~(" ++ pr Plain g ++ str ")"
    | Bin Or a b => str "(" ++ (pr Chain a ++ str "|" ++ pr Plain b) ++ str ")"
    | Bin o a b => str "(" ++ pr Plain a ++ op_text o ++ pr Plain b ++ str ")"
    end in
  match m with
  | Plain => plain
  | Chain => match f with Bin Or a b => pr Chain a ++ str "|" ++ pr Plain b | _ => plain end
  | Tail q => match f with
              | Qu q' x g => if Bool.eqb q q' then str ", " ++ pr_qvar x ++ pr (Tail q) g else str "]:(" ++ plain ++ str ")"
              | _ => str "]:(" ++ plain ++ str ")"
              end
  end.
Definition print (f : fm) : text := pr Plain f.
End Print.

(** ** The variable bank, cte_termvars.c *)
Record varbank : Type := mkbank {
  ext : list (text * (nat * text));           (* ext_index: names, with variable and sort *)
  venv : list (option (text * (nat * text))); (* env *)
  stacks : text -> list nat;                  (* the variables of each sort *)
  vcnt : text -> nat;                         (* v_counts: how many of them are in use *)
  fresh : nat }.                              (* fresh_count *)
Fixpoint lookup {A} (n : text) (l : list (text * A)) : option A :=
  match l with [] => None | (m, a) :: l' => if text_eqb n m then Some a else lookup n l' end.
Fixpoint assign {A} (n : text) (a : A) (l : list (text * A)) : list (text * A) :=
  match l with [] => [(n, a)] | (m, b) :: l' => if text_eqb n m then (m, a) :: l' else (m, b) :: assign n a l' end.
Definition upd {A} (f : text -> A) (n : text) (a : A) : text -> A := fun m => if text_eqb n m then a else f m.
(** VarBankGetFreshVar, cte_termvars.c:558-585; the variable that is created had not existed *)
Definition get_fresh (b : varbank) (t : text) : nat * varbank :=
  if length (stacks b t) <=? vcnt b t
  then let v := fresh b + 2 in (v, mkbank (ext b) (venv b) (upd (stacks b) t (stacks b t ++ [v])) (upd (vcnt b) t (S (vcnt b t))) v)
  else (nth (vcnt b t) (stacks b t) 0, mkbank (ext b) (venv b) (stacks b) (upd (vcnt b) t (S (vcnt b t))) (fresh b)).
Definition set_ext (b : varbank) (e : list (text * (nat * text))) (v : list (option (text * (nat * text)))) : varbank :=
  mkbank e v (stacks b) (vcnt b) (fresh b).
(** VarBankExtNameAssertAlloc, 602-626 *)
Definition var_alloc (b : varbank) (n : text) : nat * varbank :=
  match lookup n (ext b) with
  | Some (v, _) => (v, b)
  | None => let '(v, b') := get_fresh b default_sort in (v, set_ext b' ((n, (v, default_sort)) :: ext b') (venv b'))
  end.
(** VarBankExtNameAssertAllocSort, 642-683 *)
Definition var_alloc_sort (b : varbank) (n t : text) : nat * varbank :=
  match lookup n (ext b) with
  | None => let '(v, b') := get_fresh b t in (v, set_ext b' ((n, (v, t)) :: ext b') (venv b'))
  | Some (v, u) =>
      if text_eqb u t then (v, b)
      else let '(w, b') := get_fresh b t in (w, set_ext b' (assign n (w, t) (ext b')) (Some (n, (v, u)) :: venv b'))
  end.
(** VarBankPushEnv, VarBankPopEnv, 699-742 *)
Definition push_env (b : varbank) : varbank := set_ext b (ext b) (None :: venv b).
Fixpoint pop_frames (e : list (text * (nat * text))) (v : list (option (text * (nat * text)))) : list (text * (nat * text)) * list (option (text * (nat * text))) :=
  match v with
  | [] => (e, [])
  | None :: v' => (e, v')
  | Some (n, a) :: v' => pop_frames (assign n a e) v'
  end.
Definition pop_env (b : varbank) : varbank := let '(e, v) := pop_frames (ext b) (venv b) in set_ext b e v.

(** VarBankClearExtNamesNoReset, 357-362, before each formula (ccl_formula_wrapper.c:734) *)
Definition clear_names (b : varbank) : varbank := set_ext b [] [].

(** ** The parser *)
(** what the signature knows of a symbol: its print name, its arity, and whether it is a predicate (Some true), a function (Some false) or not known to
    be one of them (no fixed type) *)
Record pstate : Type := mkps { sig : list (text * (text * nat * option bool)); bank : varbank }.
Inductive parsed (A : Type) := Ok (a : A) (s : pstate) (l : list token) | Err | Fuel.
Arguments Ok {A}. Arguments Err {A}. Arguments Fuel {A}.
Definition bind {A B} (r : parsed A) (k : A -> pstate -> list token -> parsed B) : parsed B :=
  match r with Ok a s l => k a s l | Err => Err | Fuel => Fuel end.
Definition set_bank (s : pstate) (b : varbank) : pstate := mkps (sig s) b.
(** AcceptInpTok *)
Definition tok_eqb (a b : tok) : bool :=
  match a, b with
  | OpenBracket, OpenBracket | CloseBracket, CloseBracket | OpenSquare, OpenSquare | CloseSquare, CloseSquare | Colon, Colon
  | Pipe, Pipe | Ampersand, Ampersand => true
  | _, _ => false
  end.
Definition accept {A} (t : tok) (s : pstate) (l : list token) (k : pstate -> list token -> parsed A) : parsed A :=
  match l with (_, u) :: l' => if tok_eqb t u then k s l' else Err | [] => Err end.

(** FuncSymbParse, cte_functypes.c:232-305, with ParseNumString for integers (cio_basicparser.c:292-367) and TermParseOperator
    (cte_termfunc.c:1084-1106): the name, and whether it is a variable.  A number followed by a character that would continue it is an
    error here. *)
Inductive symkind := KVar | KFun | KNum.
Fixpoint skip_zeros (d : text) : text := match d with "0"%char :: ((_ :: _) as d') => skip_zeros d' | _ => d end.
(** normalize_int_rep, cte_functypes.c:54-90 *)
Definition normalize_int (neg : bool) (d : text) : text :=
  let d := skip_zeros d in if neg && negb (text_eqb d "0") then "-"%char :: d else d.
Definition more_number (l : list token) : bool :=
  match l with (false, Slash) :: _ | (false, Fullstop) :: _ | (false, Identifier _) :: _ => true | _ => false end.
Definition parse_sym (l : list token) : option (text * symkind * list token) :=
  match l with
  | (_, Identifier s) :: l' =>
      let cap := match s with c :: _ => isupper c || is c "_" | [] => false end in
      if cap && negb (match l' with (_, OpenBracket) :: _ => true | _ => false end) then Some (s, KVar, l') else Some (s, KFun, l')
  | (_, SemIdent s) :: l' => if text_eqb s "$distinct" then None else Some (s, KFun, l')
  | (_, SQStr s) :: l' => Some (s, KFun, l')
  | (_, Str s) :: l' => Some (s, KNum, l')
  | (_, Hyphen) :: (false, PosInt d) :: l' => if more_number l' then None else Some (normalize_int true d, KNum, l')
  | (_, Plus) :: (false, PosInt d) :: l' => if more_number l' then None else Some (normalize_int false d, KNum, l')
  | (_, PosInt d) :: l' => if more_number l' then None else Some (normalize_int false d, KNum, l')
  | _ => None
  end.
(** SigInsertId, cte_signature.c:662-745 (from TermSigInsert): symbols are known by their names without quotes; the print name is the one
    that came first; a name with another arity is an error *)
Definition raw (f : text) : text := match f with c :: r => if is c squote then removelast r else f | [] => [] end.
Definition sig_insert (s : pstate) (f : text) (n : nat) : option pstate :=
  match lookup (raw f) (sig s) with
  | Some (_, a, _) => if a =? n then Some s else None
  | None => Some (mkps ((raw f, (f, n, None)) :: sig s) (bank s))
  end.
(** SigFindName *)
Definition find_name (s : pstate) (f : text) : text := match lookup f (sig s) with Some (p, _, _) => p | None => f end.
(** SigIsFixedType with SigIsPredicate or SigIsFunction *)
Definition role (s : pstate) (f : text) : option bool := match lookup f (sig s) with Some (_, _, k) => k | None => None end.
(** SigDeclareIsPredicate, SigDeclareIsFunction, SigFixType *)
Definition declare (s : pstate) (f : text) (p : bool) : pstate :=
  match lookup f (sig s) with Some (q, a, _) => mkps (assign f (q, a, Some p) (sig s)) (bank s) | None => s end.
(** the sort after a colon: TypeBankParseType and parse_single_type, cte_typebanks.c:594, 194-277, for simple sorts; type constructors are an
    error here *)
Definition parse_sort (l : list token) : option (text * list token) :=
  match parse_sym l with Some (t, KFun, l') => match l' with (_, OpenBracket) :: _ => None | _ => Some (t, l') end | _ => None end.
(** tb_subterm_parse, cte_termbanks.c:500-528, after the term has been read: it is not a predicate *)
Definition subterm_check (t : tm) (s : pstate) : option pstate :=
  match t with
  | TV _ => Some s
  | TF f _ => match role s f with Some true => None | _ => Some (declare s f false) end
  end.
(** TBTermParseReal, cte_termbanks.c:1716-1836; tb_term_parse_arglist, 678-722 ([parse_args] stands behind a term of the list) *)
Fixpoint parse_tm (n : nat) (s : pstate) (l : list token) : parsed tm :=
  match n with
  | 0 => Fuel
  | S m =>
      match parse_sym l with
      | None => Err
      | Some (x, KVar, l1) =>
          match l1 with
          | (_, Colon) :: l2 => match parse_sort l2 with
                                | Some (t, l3) => let '(v, b) := var_alloc_sort (bank s) x t in Ok (TV v) (set_bank s b) l3
                                | None => Err
                                end
          | _ => let '(v, b) := var_alloc (bank s) x in Ok (TV v) (set_bank s b) l1
          end
      | Some (f, k, l1) =>
          bind (match l1 with
                | (_, OpenBracket) :: l2 =>
                    match k with
                    | KNum => Err
                    | _ => match l2 with
                           | (_, CloseBracket) :: l3 => Ok [] s l3
                           | _ => parse_args m s l2
                           end
                    end
                | _ => Ok [] s l1
                end)
               (fun args s l => match sig_insert s f (length args) with Some s => Ok (TF (raw f) args) s l | None => Err end)
      end
  end
with parse_args (n : nat) (s : pstate) (l : list token) : parsed (list tm) :=
  match n with
  | 0 => Fuel
  | S m =>
      bind (parse_tm m s l) (fun t s l =>
        match subterm_check t s with
        | None => Err
        | Some s =>
            match l with
            | (_, Comma) :: l' => bind (parse_args m s l') (fun ts s l => Ok (t :: ts) s l)
            | (_, CloseBracket) :: l' => Ok [t] s l'
            | _ => Err
            end
        end)
  end.
(** EqnParseInfix, ccl_eqn.c:461-600, and parse_atom, ccl_tformulae.c:398-414.  TypeDeclareIsNotPredicate (cte_typecheck.c:443-450) is an error
    here for what is known to be a predicate; there the error is one of the checks of sorts. *)
Definition parse_atom (n : nat) (s : pstate) (l : list token) : parsed fm :=
  bind (parse_tm n s l) (fun t0 s l =>
    let '(t, positive) := if tm_eqb t0 tfalse then (ttrue, false) else (t0, true) in
    let equation (pos : bool) (l : list token) :=
      match subterm_check t s with
      | None => Err
      | Some s => bind (parse_tm n s l) (fun u s l => match subterm_check u s with Some s => Ok (Lit pos t u) s l | None => Err end)
      end in
    match (match t with TV _ => Some false | TF f _ => role s f end) with
    | Some true => Ok (Lit positive t ttrue) s l
    | Some false => match l with
                    | (_, EqualSign) :: l' => equation positive l'
                    | (_, NegEqualSign) :: l' => equation (negb positive) l'
                    | _ => Err
                    end
    | None => match l with
              | (_, EqualSign) :: l' => equation positive l'
              | (_, NegEqualSign) :: l' => equation (negb positive) l'
              | _ => Ok (Lit positive t ttrue) (match t with TF f _ => declare s f true | TV _ => s end) l
              end
    end).
(** tptp_operator_convert, ccl_tformulae.c:223-264; an equation between formulas is an equivalence (1988-2000) *)
Definition operator (t : tok) : option op :=
  match t with
  | Pipe => Some Or | Ampersand => Some And | FOFLRImpl => Some Impl | FOFRLImpl => Some BImpl | FOFEquiv => Some Equiv | FOFXor => Some Xor
  | FOFNand => Some Nand | FOFNor => Some Nor | EqualSign => Some Equiv | NegEqualSign => Some Xor
  | _ => None
  end.
(** literal_tform_tstp_parse, 734-800; quantified_tform_tstp_parse, 569-627, with absorb_infix_eqn_tstp_parse, 531-553 ([parse_q]);
    assoc_tform_tstp_parse, 643-662 ([parse_assoc]); TFormulaTSTPParse, 1971-2013 ([parse_fm]).  A connective alone in parentheses and the
    application operator (higher-order syntax) are errors here. *)
Fixpoint parse_lit (n : nat) (s : pstate) (l : list token) : parsed fm :=
  match n with
  | 0 => Fuel
  | S m =>
      match l with
      | (_, Exclamation) :: l1 => accept OpenSquare s l1 (fun s l => parse_q m true s l)
      | (_, QuestionMark) :: l1 => accept OpenSquare s l1 (fun s l => parse_q m false s l)
      | (_, OpenBracket) :: l1 =>
          let bare := match l1 with (_, o) :: (_, CloseBracket) :: _ => match operator o, o with Some _, _ | _, TildeSign => true | _, _ => false end | _ => false end in
          if bare then Err else bind (parse_fm m s l1) (fun f s l => accept CloseBracket s l (fun s l => Ok f s l))
      | (_, TildeSign) :: l1 => bind (parse_lit m s l1) (fun f s l => Ok (Not f) s l)
      | _ => parse_atom m s l
      end
  end
with parse_q (n : nat) (q : bool) (s : pstate) (l : list token) : parsed fm :=
  match n with
  | 0 => Fuel
  | S m =>
      bind (parse_tm m (set_bank s (push_env (bank s))) l) (fun t s l =>
        match t with
        | TF _ _ => Err
        | TV x =>
            bind (match l with
                  | (_, Comma) :: l' => parse_q m q s l'
                  | _ => accept CloseSquare s l (fun s l => accept Colon s l (fun s l =>
                           bind (parse_lit m s l) (fun f s l =>
                             match l with
                             | (_, EqualSign) :: l' => bind (parse_lit m s l') (fun g s l => Ok (Bin Equiv f g) s l)
                             | (_, NegEqualSign) :: l' => bind (parse_lit m s l') (fun g s l => Ok (Bin Xor f g) s l)
                             | _ => Ok f s l
                             end)))
                  end)
                 (fun f s l => Ok (Qu q x f) (set_bank s (pop_env (bank s))) l)
        end)
  end
with parse_assoc (n : nat) (t : tok) (o : op) (f : fm) (s : pstate) (l : list token) : parsed fm :=
  match n with
  | 0 => Fuel
  | S m => match l with
           | (_, u) :: l' => if tok_eqb t u then bind (parse_lit m s l') (fun g s l => parse_assoc m t o (Bin o f g) s l) else Ok f s l
           | [] => Ok f s l
           end
  end
with parse_fm (n : nat) (s : pstate) (l : list token) : parsed fm :=
  match n with
  | 0 => Fuel
  | S m =>
      bind (parse_lit m s l) (fun f s l =>
        match l with
        | (_, Pipe) :: _ => parse_assoc m Pipe Or f s l
        | (_, Ampersand) :: _ => parse_assoc m Ampersand And f s l
        | (_, Application) :: _ => Err
        | (_, t) :: l' => match operator t with
                          | Some o => bind (parse_lit m s l') (fun g s l => Ok (Bin o f g) s l)
                          | None => Ok f s l
                          end
        | [] => Ok f s l
        end)
  end.

(** Reading a text that starts with a formula. *)
Definition read (s : pstate) (x : text) : option (fm * pstate * list token) :=
  match tokenize x with
  | Tokens l => match parse_fm (2 * length l + 3) s l with Ok f s l => Some (f, s, l) | _ => None end
  | _ => None
  end.
