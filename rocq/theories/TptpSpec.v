(** * What a formula says, and which names can be written (specification for C62) *)
From Coq Require Import Ascii String List Arith Bool.
From Verif Require Import Tptp.
Import ListNotations.
Local Open Scope string_scope.
Local Open Scope nat_scope.
Local Open Scope list_scope.

(** ** Names *)
Definition bs : ascii := "\".
(** between quotes: characters other than the quote, printable or beyond ASCII, with backslashes in pairs *)
Inductive body (q : ascii) : text -> Prop :=
| b_nil : body q []
| b_char c b : c <> q -> c <> bs -> isprint c = true \/ code c > 127 -> body q b -> body q (c :: b)
| b_pair b : body q b -> body q (bs :: bs :: b).
(** words: what names a function, predicate or sort with [n] arguments.  A word that starts with a capital or an underscore names a variable,
    unless arguments follow. *)
Inductive word : text -> nat -> Prop :=
| w_lower c r n : islower c = true -> forallb isidchar r = true -> word (c :: r) n
| w_upper c r n : isupper c = true \/ c = "_"%char -> forallb isidchar r = true -> n > 0 -> word (c :: r) n
| w_dollar r n : r <> [] -> forallb isidchar r = true -> ~ In ("$"%char :: r) [str "$let"; str "$ite"; str "$distinct"] -> word ("$"%char :: r) n
| w_quoted b n : body squote b -> word (squote :: b ++ [squote]) n.
(** numerals without leading zeros *)
Inductive numeral : text -> Prop :=
| n_zero : numeral "0"
| n_pos c d : isdigit c = true -> c <> "0"%char -> forallb isdigit d = true -> numeral (c :: d).
Inductive name_ok : text -> nat -> Prop :=
| k_word p n : word p n -> name_ok p n
| k_object b : body dquote b -> name_ok (dquote :: b ++ [dquote]) 0
| k_num d : numeral d -> name_ok d 0
| k_neg d : numeral d -> d <> str "0" -> name_ok ("-"%char :: d) 0.

(** ** Formulas *)
(** [kind f]: the number of arguments of [f], and whether it is a predicate *)
Section Wf.
Variable kind : text -> nat * bool.
Variable pname : text -> text.
Definition sym_ok (f : text) (args : list tm) : Prop := fst (kind f) = length args /\ name_ok (pname f) (length args) /\ raw (pname f) = f.
Inductive fterm : tm -> Prop :=
| f_var x : fterm (TV x)
| f_app f args : snd (kind f) = false -> sym_ok f args -> Forall fterm args -> fterm (TF f args).
Inductive atom : tm -> Prop := a_app f args : snd (kind f) = true -> sym_ok f args -> Forall fterm args -> atom (TF f args).
Definition truth_value (t : tm) : Prop := t = ttrue \/ t = tfalse.
Inductive wf : fm -> Prop :=
| wf_eq pos l r : fterm l -> fterm r -> wf (Lit pos l r)
| wf_atom pos l r : atom l -> truth_value r -> wf (Lit pos l r)
| wf_atom' pos l r : truth_value l -> atom r -> wf (Lit pos l r)
| wf_not f : wf f -> wf (Not f)
| wf_bin o f g : wf f -> wf g -> wf (Bin o f g)
| wf_qu q x f : wf f -> wf (Qu q x f).
(** $true and $false are predicate constants with their own names (SigInsertInternalCodes) *)
Definition constants_ok : Prop := kind "$true" = (0, true) /\ kind "$false" = (0, true) /\ pname "$true" = str "$true" /\ pname "$false" = str "$false".
End Wf.

Fixpoint tvars (t : tm) : list nat := match t with TV x => [x] | TF _ args => (fix go (l : list tm) : list nat := match l with [] => [] | u :: l' => tvars u ++ go l' end) args end.
Fixpoint vars (f : fm) : list nat :=
  match f with Lit _ l r => tvars l ++ tvars r | Not f => vars f | Bin _ f g => vars f ++ vars g | Qu _ x f => x :: vars f end.
Fixpoint free (f : fm) : list nat :=
  match f with Lit _ l r => tvars l ++ tvars r | Not f => free f | Bin _ f g => free f ++ free g | Qu _ x f => remove Nat.eq_dec x (free f) end.

(** renaming *)
Fixpoint ren_tm (h : nat -> nat) (t : tm) : tm := match t with TV x => TV (h x) | TF f args => TF f (map (ren_tm h) args) end.
Fixpoint ren (h : nat -> nat) (f : fm) : fm :=
  match f with Lit p l r => Lit p (ren_tm h l) (ren_tm h r) | Not f => Not (ren h f) | Bin o f g => Bin o (ren h f) (ren h g) | Qu q x f => Qu q (h x) (ren h f) end.

(** The form in which a literal is read: atoms have $true on the right, and a negation in front if need be. *)
Definition signed_atom (pos : bool) (a : tm) : fm :=
  let '(pos, a) := if tm_eqb a tfalse then (negb pos, ttrue) else (pos, a) in if pos then Lit true a ttrue else Not (Lit true a ttrue).
Definition norm_lit (pos : bool) (l r : tm) : fm :=
  if tm_eqb r ttrue then signed_atom pos l else if tm_eqb r tfalse then signed_atom (negb pos) l
  else if tm_eqb l ttrue then signed_atom pos r else if tm_eqb l tfalse then signed_atom (negb pos) r
  else Lit pos l r.
Fixpoint norm (f : fm) : fm :=
  match f with Lit pos l r => norm_lit pos l r | Not f => Not (norm f) | Bin o f g => Bin o (norm f) (norm g) | Qu q x f => Qu q x (norm f) end.

(** ** Meaning *)
Record structure : Type := mkstruct { D : Type; dom : text -> D -> Prop; fn : text -> list D -> D; rel : text -> list D -> bool }.
Section Sat.
Variables (kind : text -> nat * bool) (M : structure).
Fixpoint ev (b : nat -> D M) (t : tm) : D M := match t with TV x => b x | TF f args => fn M f (map (ev b) args) end.
Definition is_atom (t : tm) : bool := match t with TV _ => false | TF f _ => snd (kind f) end.
Definition holds (b : nat -> D M) (t : tm) : bool :=
  match t with
  | TV _ => false
  | TF f args => if text_eqb f "$true" then true else if text_eqb f "$false" then false else rel M f (map (ev b) args)
  end.
Definition signed (pos : bool) (P : Prop) : Prop := if pos then P else ~ P.
Definition op_sem (o : op) (P Q : Prop) : Prop :=
  match o with
  | And => P /\ Q | Or => P \/ Q | Impl => P -> Q | BImpl => Q -> P | Equiv => P <-> Q | Xor => ~ (P <-> Q) | Nand => ~ (P /\ Q) | Nor => ~ (P \/ Q)
  end.
Definition bindv {A} (b : nat -> A) (x : nat) (a : A) : nat -> A := fun y => if Nat.eq_dec x y then a else b y.
(** [vs]: the sorts of the variables *)
Fixpoint sat (vs : nat -> text) (b : nat -> D M) (f : fm) : Prop :=
  match f with
  | Lit pos l r => signed pos (if is_atom l || is_atom r then holds b l = holds b r else ev b l = ev b r)
  | Not f => ~ sat vs b f
  | Bin o f g => op_sem o (sat vs b f) (sat vs b g)
  | Qu true x f => forall a, dom M (vs x) a -> sat vs (bindv b x a) f
  | Qu false x f => exists a, dom M (vs x) a /\ sat vs (bindv b x a) f
  end.
End Sat.

(** ** The reader *)
(** the signature holds nothing that contradicts [kind] *)
Definition agrees (kind : text -> nat * bool) (s : pstate) : Prop :=
  forall f p a k, lookup f (sig s) = Some (p, a, k) -> a = fst (kind f) /\ (k = None \/ k = Some (snd (kind f))).
(** the variable bank is in order: no variable is listed twice, or under two sorts; new ones are new *)
Record bank_ok (b : varbank) : Prop := mkbok {
  bo_cnt : forall t, vcnt b t <= length (stacks b t);
  bo_nodup : forall t, NoDup (stacks b t);
  bo_fresh : forall t v, In v (stacks b t) -> v <= fresh b;
  bo_sort : forall t u v, In v (stacks b t) -> In v (stacks b u) -> t = u }.
(** what may stand behind the formula *)
Definition ends (r : text) : Prop := match r with [] => True | c :: _ => c = ")"%char \/ c = ","%char \/ c = "]"%char end.

(** ** States of the reader *)
(** between two formulas the names of variables are forgotten *)
Definition next (s : pstate) : pstate := mkps (sig s) (clear_names (bank s)).
(** the beginning: $true and $false are predicates (SigAlloc, cte_signature.c:142-150; the other internal symbols are left out), there are no variables *)
Definition start : pstate :=
  mkps [(str "$true", (str "$true", 0, Some true)); (str "$false", (str "$false", 0, Some true))] (mkbank [] [] (fun _ => []) (fun _ => 0) 0).
Inductive reachable : pstate -> Prop :=
| r_start : reachable start
| r_read s x f s' l : reachable s -> read (next s) x = Some (f, s', l) -> reachable s'.
(** what the signature says of a symbol *)
Definition kind_of (s : pstate) (f : text) : nat * bool :=
  match lookup f (sig s) with Some (_, a, k) => (a, match k with Some b => b | None => false end) | None => (0, false) end.
(** constants that look like variables *)
Definition capital (p : text) : Prop := exists c r, p = c :: r /\ (isupper c = true \/ c = "_"%char) /\ forallb isidchar r = true.
Definition no_capitals (s : pstate) : Prop := forall f p k, lookup f (sig s) = Some (p, 0, k) -> ~ capital p.
(** the sorts of the variables in the bank *)
Definition sorts_of (b : varbank) (vs : nat -> text) : Prop :=
  (forall t v, In v (stacks b t) -> vs v = t) /\ (forall v, vs v <> default_sort -> In v (stacks b (vs v))).
Definition injective_on (h : nat -> nat) (V : list nat) : Prop := forall x y, In x V -> In y V -> h x = h y -> x = y.
